(** The power spectrum and the autocovariance function belong to the same process. *)
From Coq Require Import Reals List Arith Lra Lia.
From Coquelicot Require Import Complex Coquelicot.
From Verif Require Import Arith Emb Spec Cx SpecCarma CLin KFpX PyModel Spectrum SpectrumTop.
Import ListNotations.
Local Open Scope R_scope.

(** C74: power_spectrum is the Fourier transform of carma_variance, and integrates to its value at lag zero. *)
Theorem C74_psd_is_transform : forall isreal (om : list C) (sigma : R) (ma : list R),
  stable_roots om -> om <> [] -> (length ma <= length om)%nat ->
  exists acv psd : R -> R,
    (forall lag, carma_variance (Fin (sigma * sigma) : F AX) (map FinC om) (map Fin ma) (Fin lag) = Fin (acv lag)) /\
    (forall f, power_spectrum AX (Fin f) (Fin sigma) (py_ar_coefs isreal (map FinC om)) (map Fin ma) = Fin (psd f)) /\
    (forall f, is_transform acv f (psd f) 0) /\ whole_line psd (acv 0).
Proof. exact spectrum_pair. Qed.
Print Assumptions C74_psd_is_transform.

(** C74, CAR(1): the spectrum of Car1Sample.plot_power_spectrum is the transform of the CAR(1) covariance. *)
Theorem C74_car1 : forall sigma lo,
  exists psd : R -> R, (forall f, car1_psd AX (Fin sigma) (Fin lo) (Fin f) = Fin (psd f)) /\
    (forall f, is_transform (fun t => ou_cov (sigma * sigma) (exp lo) t 0) f (psd f) 0) /\
    whole_line psd (ou_cov (sigma * sigma) (exp lo) 0 0).
Proof. exact car1_pair. Qed.
Print Assumptions C74_car1.

(** C74: a function has at most one transform and one integral. *)
Theorem C74_transform_unique : forall acv f re im re' im' g v v',
  (is_transform acv f re im -> is_transform acv f re' im' -> re = re' /\ im = im') /\ (whole_line g v -> whole_line g v' -> v = v').
Proof.
  intros acv f re im re' im' g v v'. assert (forall g v v', whole_line g v -> whole_line g v' -> v = v') as H.
  { intros g0 a b Ha Hb. pose proof (is_RInt_gen_unique (V := R_CompleteNormedModule) g0 a Ha). pose proof (is_RInt_gen_unique (V := R_CompleteNormedModule) g0 b Hb). congruence. }
  split; [intros [A1 A2] [B1 B2]; split; eapply H; eassumption|apply H].
Qed.
Print Assumptions C74_transform_unique.

Example ex_pair : exists (om : list C) (ma : list R), stable_roots om /\ om <> [] /\ (length ma <= length om)%nat.
Proof.
  exists [(-1, -1); (-1, 1)], [1; 2]. split; [|split; [discriminate|cbn; lia]].
  split; [|split].
  - constructor; [intros [E|[]]; injection E; lra|constructor; [intros []|constructor]].
  - intros z [<-|[<-|[]]]; cbn [fst]; lra.
  - intros z [<-|[<-|[]]]; [right; left|left]; apply C_eq; simpl; lra.
Qed.
