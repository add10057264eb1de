(** KalmanFilterp on the extended reals: with finite data the recursions are those of KFpR. *)
From Coq Require Import Reals List Arith ZArith Lra Lia Bool.
From Coquelicot Require Import Complex.
From Verif Require Import Arith Res ListLemmas KFModel KF1Proof Spec Gauss Emb KF1R Cx KFpModel KFpProof SpecCarma CLin KFpR.
Import ListNotations.
Local Open Scope R_scope.

(** finite complex numbers *)
Definition FinC (z : C) : cx AX := (Fin (fst z), Fin (snd z)).

Lemma FinC_add a b : cadd (FinC a) (FinC b) = FinC (Cplus a b).
Proof. reflexivity. Qed.
Lemma FinC_sub a b : csub (FinC a) (FinC b) = FinC (Cminus a b).
Proof. reflexivity. Qed.
Lemma FinC_mul a b : cmul (FinC a) (FinC b) = FinC (Cmult a b).
Proof. reflexivity. Qed.
Lemma FinC_conj a : conj (FinC a) = FinC (Cconj a).
Proof. reflexivity. Qed.
Lemma FinC_0 : c0 AX = FinC (RtoC 0).
Proof. reflexivity. Qed.
Lemma FinC_1 : c1 AX = FinC (RtoC 1).
Proof. reflexivity. Qed.
Lemma FinC_scale r a : @cscale AX (Fin r) (FinC a) = FinC (Cmult (RtoC r) a).
Proof. unfold cscale, FinC. simpl. f_equal; f_equal; ring. Qed.
Lemma FinC_divr a r : r <> 0 -> @cdivr AX (FinC a) (Fin r) = FinC (Cdiv a (RtoC r)).
Proof.
  intros H. unfold cdivr, FinC. cbn [fst snd fdiv AX]. rewrite !fin_div by exact H.
  unfold Cdiv, Cinv, Cmult, RtoC. cbn [fst snd]. f_equal; f_equal; field; exact H.
Qed.
Lemma FinC_div a b : b <> RtoC 0 -> cdiv (FinC a) (FinC b) = FinC (Cdiv a b).
Proof.
  intros H. unfold cdiv, FinC. cbn [fst snd fdiv fadd fsub fmul AX xadd xsub xmul].
  assert (fst b * fst b + snd b * snd b <> 0) as Hn.
  { intros E. apply H. apply C_eq; simpl; nra. }
  rewrite !fin_div by exact Hn. unfold Cdiv, Cinv, Cmult. cbn [fst snd].
  f_equal; f_equal; field; simpl; intros E; apply Hn; lra.
Qed.
Lemma FinC_exp a : cexp (FinC a) = FinC (Cexp a).
Proof. reflexivity. Qed.
Lemma FinC_pown a n : cpown (FinC a) n = FinC (Cpown a n).
Proof. induction n as [|n IH]; [reflexivity|]. cbn [cpown Cpown]. rewrite IH. apply FinC_mul. Qed.
Lemma FinC_sum f g n : (forall k, (k < n)%nat -> f k = FinC (g k)) -> csum f n = FinC (Csum g n).
Proof.
  induction n as [|n IH]; intros H; [reflexivity|]. cbn [csum Csum]. rewrite IH, H by (intros; try apply H; lia). apply FinC_add.
Qed.
Lemma FinC_inj a b : FinC a = FinC b -> a = b.
Proof. intros H. injection H. intros. apply C_eq; assumption. Qed.

Definition repv (p : nat) (l : list (cx AX)) (f : nat -> C) : Prop := forall a, (a < p)%nat -> vnth l a = FinC (f a).
Definition repm (p : nat) (M : list (list (cx AX))) (f : nat -> nat -> C) : Prop :=
  forall a c, (a < p)%nat -> (c < p)%nat -> mnth M a c = FinC (f a c).

Lemma vbuild_vnth p (f : nat -> cx AX) a : (a < p)%nat -> vnth (vbuild p f) a = f a.
Proof. intros H. unfold vnth. apply vbuild_nth, H. Qed.
Lemma mbuild_mnth p (f : nat -> nat -> cx AX) a c : (a < p)%nat -> (c < p)%nat -> mnth (mbuild p p f) a c = f a c.
Proof. intros Ha Hc. unfold mnth, mbuild. rewrite vbuild_nth by exact Ha. apply vbuild_nth, Hc. Qed.

Section X.
Variables (p : nat) (omX bX : list (cx AX)) (SVX : list (list (cx AX))).
Variables (om b : nat -> C) (V : nat -> nat -> C).
Hypothesis Hom : repv p omX om.
Hypothesis Hb : repv p bX b.
Hypothesis HSV : repm p SVX V.
Let E (h : R) (i : nat) : C := Cexp (Cmult (om i) (RtoC h)).

Lemma quadf_fin M m : repm p M m -> quadf p bX M = Fin (fst (bform p b m b)).
Proof.
  intros HM. unfold quadf.
  rewrite (FinC_sum _ (fun j => Cmult (Csum (fun i => Cmult (b i) (m i j)) p) (Cconj (b j)))).
  - unfold FinC. cbn [fst]. f_equal. f_equal. unfold bform. rewrite Csum_swap. apply Csum_ext. intros j Hj.
    rewrite <- Csum_scal_r. reflexivity.
  - intros j Hj. rewrite (FinC_sum _ (fun i => Cmult (b i) (m i j))).
    + rewrite Hb by exact Hj. reflexivity.
    + intros i Hi. rewrite Hb, HM by assumption. reflexivity.
Qed.
Lemma linf_fin v f : repv p v f -> linf p bX v = Fin (fst (dotv p b f)).
Proof.
  intros Hv. unfold linf. rewrite (FinC_sum _ (fun i => Cmult (b i) (f i))); [reflexivity|].
  intros i Hi. rewrite Hb, Hv by exact Hi. reflexivity.
Qed.
Lemma gainf_fin M m v : repm p M m -> v <> 0 -> repv p (gainf p bX M (Fin v)) (fun a => Cdiv (mulb p b m a) (RtoC v)).
Proof.
  intros HM Hv a Ha. unfold gainf. rewrite vbuild_vnth by exact Ha.
  rewrite (FinC_sum _ (fun j => Cmult (m a j) (Cconj (b j)))).
  - apply FinC_divr, Hv.
  - intros j Hj. rewrite HM, Hb by assumption. reflexivity.
Qed.
Lemma condV_fin M m G g v : repm p M m -> repv p G g ->
  repm p (condV p M G (Fin v)) (fun a c => Cminus (m a c) (Cmult (RtoC v) (Cmult (g a) (Cconj (g c))))).
Proof.
  intros HM HG a c Ha Hc. unfold condV. rewrite mbuild_mnth by assumption. rewrite HM, !HG by assumption.
  rewrite FinC_conj, FinC_mul, FinC_scale. reflexivity.
Qed.
Lemma rhof_fin d : repv p (rhof p omX (Fin d)) (E d).
Proof.
  intros a Ha. unfold rhof. rewrite vbuild_vnth by exact Ha. rewrite Hom by exact Ha. rewrite FinC_scale, FinC_exp.
  unfold E. f_equal. f_equal. apply Cmult_comm.
Qed.
Lemma schur_fin R1 r1 W1 w1 : repv p R1 r1 -> repv p W1 w1 -> repv p (schur p R1 W1) (fun a => Cmult (r1 a) (w1 a)).
Proof. intros HR HW a Ha. unfold schur. rewrite vbuild_vnth by exact Ha. rewrite HR, HW by exact Ha. reflexivity. Qed.
Lemma propV_fin R1 r1 M m : repv p R1 r1 -> repm p M m ->
  repm p (propV p R1 M SVX) (fun a c => Cplus (Cmult (Cmult (r1 a) (Cconj (r1 c))) (Cminus (m a c) (V a c))) (V a c)).
Proof.
  intros HR HM a c Ha Hc. unfold propV. rewrite mbuild_mnth by assumption. rewrite !HR, HM, HSV by assumption. reflexivity.
Qed.
Lemma axpy_fin X x G g r : repv p X x -> repv p G g -> repv p (axpy p X G (Fin r)) (fun a => Cplus (x a) (Cmult (RtoC r) (g a))).
Proof. intros HX HG a Ha. unfold axpy. rewrite vbuild_vnth by exact Ha. rewrite HX, HG, FinC_scale by exact Ha. reflexivity. Qed.
Lemma axmy_fin X x G g r : repv p X x -> repv p G g -> repv p (axmy p X G (Fin r)) (fun a => Cminus (x a) (Cmult (RtoC r) (g a))).
Proof. intros HX HG a Ha. unfold axmy. rewrite vbuild_vnth by exact Ha. rewrite HX, HG, FinC_scale by exact Ha. reflexivity. Qed.

Lemma repv_ext l f g : repv p l f -> (forall a, (a < p)%nat -> f a = g a) -> repv p l g.
Proof. intros H E0 a Ha. rewrite H, E0 by exact Ha. reflexivity. Qed.
Lemma repm_ext l f g : repm p l f -> (forall a c, (a < p)%nat -> (c < p)%nat -> f a c = g a c) -> repm p l g.
Proof. intros H E0 a c Ha Hc. rewrite H, E0 by assumption. reflexivity. Qed.

Lemma czeros_rep : repv p (czeros AX p) (fun _ => RtoC 0).
Proof. intros a Ha. unfold vnth, czeros. rewrite nth_repeat. reflexivity. Qed.

Lemma dotv_0 : dotv p b (fun _ => RtoC 0) = RtoC 0.
Proof. unfold dotv. apply Csum_0. intros. ring. Qed.

Hypothesis Hpos : forall (t e : nat -> R) n,
  (forall i j, (i <= j)%nat -> (j < n)%nat -> t i <= t j) ->
  (forall i, (S i < n)%nat -> t i = t (S i) -> e (S i) <> 0) ->
  forall i, (i < n)%nat -> 0 < vf p b V E t e i.

Section Data.
Variables (tr yr er : list R).
Let n := length tr.
Hypothesis Hinc : times_ok tr er.
Let dt : list R := diffs AR tr.
Let timeX : list (F AX) := map Fin tr. Let dtX : list (F AX) := map Fin dt.
Let yX : list (F AX) := map Fin yr. Let yerrX : list (F AX) := map Fin er.
Let t i := nth i tr 0. Let y i := nth i yr 0. Let e i := nth i er 0.

Lemma t_le i j : (i <= j)%nat -> (j < n)%nat -> t i <= t j.
Proof. intros Hij Hj. destruct (Nat.eq_dec i j) as [->|]; [lra|]. apply Hinc; [lia|exact Hj]. Qed.
Lemma t_tie i : (S i < n)%nat -> t i = t (S i) -> e (S i) <> 0.
Proof. apply Hinc. Qed.

Lemma nthX l i : nth i (map Fin l) (fofZ AX 0) = Fin (nth i l 0).
Proof. apply nth_map_Fin. Qed.

Lemma dt_nth i : (S i < n)%nat -> nth i dtX (fofZ AX 0) = Fin (t (S i) - t i).
Proof. intros H. unfold dtX. rewrite nthX. f_equal. unfold dt. apply (diffs_nth AR tr i 0 0 H). Qed.

(** one step of the filter; [t2 e2 y2] may be the augmented data *)
Definition repcore (x : fcore AX) (f : nat -> C) (m : nat -> nat -> C) : Prop := repv p (fst x) f /\ repm p (snd x) m.

Lemma fvar_fin x f m (t2 e2 : nat -> R) i k : repcore x f m -> m = PV p b V E t2 e2 k -> e i = e2 k ->
  fvar yerrX p bX x i = Fin (vf p b V E t2 e2 k).
Proof.
  intros [_ Hm] -> He. unfold fvar. rewrite (quadf_fin _ _ Hm). unfold yerrX. rewrite nthX. fold (e i). rewrite He. reflexivity.
Qed.

Lemma finn_fin x f m i : repcore x f m -> (i = O -> forall a, (a < p)%nat -> f a = RtoC 0) ->
  finn yX p bX x i = Fin (y i - fst (dotv p b f)).
Proof.
  intros [Hf _] H0. unfold finn, yX. destruct i as [|i].
  - rewrite nthX. fold (y 0%nat). rewrite (dotv_ext p b b f (fun _ => RtoC 0)); [|reflexivity|apply H0; reflexivity].
    rewrite dotv_0. f_equal. simpl. unfold y. ring.
  - rewrite (linf_fin _ _ Hf), nthX. reflexivity.
Qed.

Lemma fstep_fin x (t2 e2 y2 : nat -> R) i d :
  repcore x (xf p b V E t2 e2 y2 i) (PV p b V E t2 e2 i) ->
  vf p b V E t2 e2 i <> 0 -> e i = e2 i -> y i = y2 i -> d = t2 (S i) - t2 i ->
  repcore (fstep yX yerrX p omX bX SVX x i (Fin d)) (xf p b V E t2 e2 y2 (S i)) (PV p b V E t2 e2 (S i)).
Proof.
  intros Hx Hv He Hy ->. unfold fstep.
  rewrite (fvar_fin x _ _ t2 e2 i i Hx eq_refl He).
  rewrite (finn_fin x _ _ i Hx) by (intros -> a Ha; reflexivity).
  destruct Hx as [Hf Hm]. pose proof (gainf_fin _ _ _ Hm Hv) as Hg.
  split; cbn [fst snd].
  - eapply repv_ext; [apply schur_fin; [apply rhof_fin|apply axpy_fin; [exact Hf|exact Hg]]|].
    intros a Ha. cbn [xf]. rewrite Hy. f_equal. f_equal. apply Cmult_comm.
  - eapply repm_ext; [apply propV_fin; [apply rhof_fin|apply condV_fin; [exact Hm|exact Hg]]|].
    intros a c Ha Hc. reflexivity.
Qed.

Lemma fcorep_fin i : (i < n)%nat -> repcore (fcorep dtX yX yerrX p omX bX SVX i) (xf p b V E t e y i) (PV p b V E t e i).
Proof.
  induction i as [|i IH]; intros Hi.
  - split; [apply czeros_rep|exact HSV].
  - cbn [fcorep]. rewrite dt_nth by exact Hi. apply fstep_fin; try reflexivity; [apply IH; lia|].
    apply Rgt_not_eq. apply (Hpos t e n t_le t_tie). lia.
Qed.

Lemma vp_fin i : (i < n)%nat -> vp dtX yX yerrX p omX bX SVX i = Fin (vf p b V E t e i).
Proof. intros Hi. unfold vp. apply (fvar_fin _ _ _ t e i i (fcorep_fin i Hi)); reflexivity. Qed.
Lemma mp_fin i : (i < n)%nat -> mp dtX yX yerrX p omX bX SVX i = Fin (fst (dotv p b (xf p b V E t e y i))).
Proof.
  intros Hi. unfold mp, fmean. destruct i as [|i].
  - cbn [xf]. rewrite dotv_0. reflexivity.
  - apply linf_fin. apply (fcorep_fin (S i) Hi).
Qed.

(** ** Predict *)
Section Pred.
Variable tp : R.
Let ip := lt_prefix AR tr tp.
Hypothesis Hnz : forall i, (i < n)%nat -> t i = tp -> e i <> 0.
Let t' := insf ip t tp.
Let e' := insf ip e 0.
Let y' := yx y ip 0.

Lemma ip_le : (ip <= n)%nat.
Proof. apply lt_prefix_len. Qed.
Lemma bef k : (k < ip)%nat -> t k < tp.
Proof. intros H. apply (lt_prefix_spec tr tp k (proj1 Hinc)); [pose proof ip_le; unfold n in *; lia|exact H]. Qed.
Lemma aft k : (ip <= k)%nat -> (k < n)%nat -> tp <= t k.
Proof.
  intros H Hk. destruct (Rlt_dec (t k) tp) as [H2|H2]; [|lra].
  apply (lt_prefix_spec tr tp k (proj1 Hinc) Hk) in H2. unfold ip in H. lia.
Qed.
Lemma ok_ip : (ip < n)%nat -> t ip = tp -> e ip <> 0.
Proof. intros H E0. apply Hnz; assumption. Qed.

Lemma pos' i : (i < S n)%nat -> 0 < vf p b V E t' e' i.
Proof.
  apply (Hpos t' e' (S n)).
  - eapply le'; [exact t_le|exact ip_le|exact bef|exact aft|exact ok_ip].
  - eapply tie'; [exact t_tie|exact ip_le|exact bef|exact ok_ip].
Qed.
Lemma pos'' i : (i < S n)%nat -> vf p b V E t' e' i <> 0.
Proof. intros H. apply Rgt_not_eq, pos', H. Qed.

Lemma fcorep_fin' i : (i < ip)%nat -> repcore (fcorep dtX yX yerrX p omX bX SVX i) (xf p b V E t' e' y' i) (PV p b V E t' e' i).
Proof.
  pose proof ip_le as Hle. induction i as [|i IH]; intros Hi.
  - split; [apply czeros_rep|exact HSV].
  - cbn [fcorep]. rewrite dt_nth by lia. apply fstep_fin.
    + apply IH. lia.
    + apply pos''. lia.
    + unfold e'. rewrite insf_lt by lia. reflexivity.
    + unfold y', yx. rewrite insf_lt by lia. reflexivity.
    + unfold t'. rewrite !insf_lt by lia. reflexivity.
Qed.

Lemma fcast_fin : repcore (fcast timeX dtX yX yerrX p omX bX SVX (Fin tp) ip) (xf p b V E t' e' y' ip) (PV p b V E t' e' ip).
Proof.
  pose proof ip_le as Hle. unfold fcast.
  assert (forall k, ip = S k -> repcore (fstep yX yerrX p omX bX SVX (fcorep dtX yX yerrX p omX bX SVX k) k (fabs AX (fsub AX (Fin tp) (nth k timeX (fofZ AX 0)))))
     (xf p b V E t' e' y' (S k)) (PV p b V E t' e' (S k))) as HS.
  { intros k Eip. unfold timeX. rewrite nthX. fold (t k).
    replace (fabs AX (fsub AX (Fin tp) (Fin (t k)))) with (Fin (tp - t k)).
    2:{ cbn [fsub fabs AX xsub xabs]. f_equal. rewrite Rabs_pos_eq; [reflexivity|]. pose proof (bef k ltac:(lia)). lra. }
    apply fstep_fin.
    - apply fcorep_fin'. lia.
    - apply pos''. lia.
    - unfold e'. rewrite insf_lt by lia. reflexivity.
    - unfold y', yx. rewrite insf_lt by lia. reflexivity.
    - unfold t'. rewrite <- Eip at 1. rewrite insf_ip, insf_lt by lia. reflexivity. }
  destruct ip as [|k]; [split; [apply czeros_rep|exact HSV]|]. apply HS. reflexivity.
Qed.

Lemma fcastmv_fin : fcastmv timeX dtX yX yerrX p omX bX SVX (Fin tp) ip
  = (Fin (m0 p b V E t e y ip tp), Fin (v0 p b V E t e ip tp)).
Proof.
  pose proof fcast_fin as [Hf Hm]. unfold fcastmv. f_equal.
  - unfold m0. fold t' e'. change (yx y ip 0) with y'. unfold fmean. destruct ip as [|k]; [|apply linf_fin; exact Hf].
    cbn [xf]. rewrite dotv_0. reflexivity.
  - apply quadf_fin. exact Hm.
Qed.

Definition reppc (x : pcore AX) (co sl : nat -> C) (m : nat -> nat -> C) : Prop :=
  repv p (fst (fst x)) co /\ repv p (snd (fst x)) sl /\ repm p (snd x) m.

Lemma W_S i k a : W p b V E t' e' (S i) k a =
  if Nat.eqb k i then Cmult (E (t' (S i) - t' i) a) (gf p b V E t' e' i a)
  else Cmult (E (t' (S i) - t' i) a) (Cminus (W p b V E t' e' i k a) (Cmult (gf p b V E t' e' i a) (RtoC (wt p b V E t' e' i k)))).
Proof. cbn [W]. destruct (Nat.eqb k i); reflexivity. Qed.

Lemma pvar_fin x co sl i : (ip <= i)%nat -> (i < n)%nat -> reppc x co sl (PV p b V E t' e' (S i)) ->
  pvar yerrX p bX x i = Fin (cvr p b V E t e ip tp i).
Proof.
  intros H1 H2 (_ & _ & Hm). unfold pvar. rewrite (quadf_fin _ _ Hm). unfold yerrX. rewrite nthX. unfold cvr. fold t' e'.
  unfold vf, vof. replace (e' (S i)) with (e i); [reflexivity|]. unfold e'. rewrite insf_S by exact H1. reflexivity.
Qed.

Lemma pcorep_fin k : (ip + k < n)%nat ->
  reppc (pcorep timeX dtX yX yerrX p omX bX SVX (Fin tp) ip (Fin (m0 p b V E t e y ip tp)) (Fin (v0 p b V E t e ip tp)) k)
    (xf p b V E t' e' y' (S (ip + k))) (W p b V E t' e' (S (ip + k)) ip) (PV p b V E t' e' (S (ip + k))).
Proof.
  assert (v0 p b V E t e ip tp = vf p b V E t' e' ip) as Ev by apply v0_vf.
  induction k as [|k IH]; intros Hk.
  - rewrite Nat.add_0_r in *. cbn [pcorep]. unfold timeX at 2. rewrite nthX. fold (t ip).
    replace (fabs AX (fsub AX (Fin (t ip)) (Fin tp))) with (Fin (t' (S ip) - t' ip)).
    2:{ cbn [fsub fabs AX xsub xabs]. f_equal. unfold t'. rewrite insf_ip, insf_S by lia.
        rewrite Rabs_pos_eq; [reflexivity|]. pose proof (aft ip ltac:(lia) Hk). lra. }
    pose proof fcast_fin as [Hf Hm]. unfold pinit. rewrite Ev.
    pose proof (gainf_fin _ _ _ Hm (pos'' ip ltac:(lia))) as Hg.
    split; [|split]; cbn [fst snd].
    + eapply repv_ext; [apply schur_fin; [apply rhof_fin|apply axmy_fin; [exact Hf|exact Hg]]|].
      intros a Ha. cbn [xf]. f_equal. unfold m0. fold t' e'. change (yx y ip 0) with y'.
      replace (y' ip) with 0 by (unfold y', yx; rewrite insf_ip; reflexivity).
      unfold gf, gof, vf. set (m := fst (dotv p b (xf p b V E t' e' y' ip))).
      apply C_eq; simpl; ring.
    + eapply repv_ext; [apply schur_fin; [apply rhof_fin|exact Hg]|].
      intros a Ha. rewrite W_S, Nat.eqb_refl. reflexivity.
    + eapply repm_ext; [apply propV_fin; [apply rhof_fin|apply condV_fin; [exact Hm|exact Hg]]|].
      intros a c Ha Hc. reflexivity.
  - rewrite Nat.add_succ_r in *. cbn [pcorep]. set (i := (ip + k)%nat) in *.
    specialize (IH ltac:(lia)). rewrite dt_nth by exact Hk.
    set (x := pcorep timeX dtX yX yerrX p omX bX SVX (Fin tp) ip (Fin (m0 p b V E t e y ip tp)) (Fin (v0 p b V E t e ip tp)) k) in *.
    unfold pstep. rewrite (pvar_fin x _ _ i ltac:(lia) ltac:(lia) IH). destruct IH as (Hco & Hsl & Hm).
    unfold pconst, pslope. rewrite (linf_fin _ _ Hco), (linf_fin _ _ Hsl). unfold yX. rewrite nthX. fold (y i).
    change (cvr p b V E t e ip tp i) with (vf p b V E t' e' (S i)).
    pose proof (gainf_fin _ _ _ Hm (pos'' (S i) ltac:(lia))) as Hg.
    assert (t (S i) - t i = t' (S (S i)) - t' (S i)) as Et by (unfold t'; rewrite !insf_S by lia; reflexivity).
    rewrite Et.
    split; [|split]; cbn [fst snd fsub AX xsub].
    + eapply repv_ext; [apply schur_fin; [apply rhof_fin|apply axpy_fin; [exact Hco|exact Hg]]|].
      intros a Ha. cbn [xf]. f_equal. f_equal.
      replace (y' (S i)) with (y i) by (unfold y', yx; rewrite insf_S by lia; reflexivity).
      apply Cmult_comm.
    + eapply repv_ext; [apply schur_fin; [apply rhof_fin|apply axmy_fin; [exact Hsl|exact Hg]]|].
      intros a Ha. rewrite (W_S (S i)). destruct (Nat.eqb_spec ip (S i)); [lia|]. f_equal. f_equal. apply Cmult_comm.
    + eapply repm_ext; [apply propV_fin; [apply rhof_fin|apply condV_fin; [exact Hm|exact Hg]]|].
      intros a c Ha Hc. reflexivity.
Qed.

Lemma pconst_fin k : (ip + k < n)%nat -> fst (dotv p b (xf p b V E t' e' y' (S (ip + k)))) = cst p b V E t e y ip tp (ip + k).
Proof.
  intros Hk. rewrite <- cst_cvec. f_equal. apply dotv_ext; [reflexivity|]. intros a Ha.
  unfold y'. etransitivity; [eapply xf_affine; [exact ip_le|exact bef|exact aft|exact ok_ip|lia|exact Ha]|]. ring.
Qed.

Lemma pacc_fin k : (ip + k <= n)%nat ->
  pacc timeX dtX yX yerrX p omX bX SVX (Fin tp) ip (Fin (m0 p b V E t e y ip tp)) (Fin (v0 p b V E t e ip tp)) k
    (Fin (m0 p b V E t e y ip tp * (1 / v0 p b V E t e ip tp)), Fin (1 / v0 p b V E t e ip tp))
  = (Fin (fst (accR p b V E t e y ip tp k)), Fin (snd (accR p b V E t e y ip tp k))).
Proof.
  induction k as [|k IH]; intros Hk; [reflexivity|].
  cbn [pacc]. rewrite IH by lia. unfold pacc1.
  pose proof (pcorep_fin k ltac:(lia)) as HP.
  set (x := pcorep timeX dtX yX yerrX p omX bX SVX (Fin tp) ip (Fin (m0 p b V E t e y ip tp)) (Fin (v0 p b V E t e ip tp)) k) in *.
  rewrite (pvar_fin x _ _ (ip + k) ltac:(lia) ltac:(lia) HP). destruct HP as (Hco & Hsl & Hm).
  unfold pconst, pslope. rewrite (linf_fin _ _ Hco), (linf_fin _ _ Hsl). unfold yX. rewrite nthX. fold (y (ip + k)%nat).
  rewrite pconst_fin by lia.
  change (fst (dotv p b (W p b V E t' e' (S (ip + k)) ip))) with (slp p b V E t e ip tp (ip + k)).
  assert (cvr p b V E t e ip tp (ip + k) <> 0) as Hc.
  { apply (pos'' (S (ip + k))). lia. }
  cbn [fst snd fsub fmul fadd fdiv AX xsub xmul]. rewrite !fin_div by exact Hc. cbn [xadd accR fst snd]. reflexivity.
Qed.

Lemma accR_pos k : (ip + k <= n)%nat -> 0 < snd (accR p b V E t e y ip tp k).
Proof.
  induction k as [|k IH]; intros Hk.
  - cbn [accR snd]. assert (0 < v0 p b V E t e ip tp) as H.
    { replace (v0 p b V E t e ip tp) with (vf p b V E t' e' ip) by (symmetry; apply v0_vf). apply pos'. lia. }
    unfold Rdiv. rewrite Rmult_1_l. apply Rinv_0_lt_compat, H.
  - cbn [accR snd]. specialize (IH ltac:(lia)). pose proof (pos' (S (ip + k)) ltac:(lia)) as Hc.
    change (vf p b V E t' e' (S (ip + k))) with (cvr p b V E t e ip tp (ip + k)) in Hc.
    set (s := slp p b V E t e ip tp (ip + k)).
    assert (0 <= s * s / cvr p b V E t e ip tp (ip + k)).
    { apply Rmult_le_pos; [apply Rle_0_sqr|left; apply Rinv_0_lt_compat, Hc]. }
    lra.
Qed.

Lemma predp_fin : predp timeX dtX yX yerrX p omX bX SVX (Fin tp) =
  if Nat.eqb ip n then (Fin (m0 p b V E t e y ip tp), Fin (v0 p b V E t e ip tp))
  else let a := accR p b V E t e y ip tp (n - ip) in (Fin (fst a * (1 / snd a)), Fin (1 / snd a)).
Proof.
  unfold predp. replace (lt_prefix AX timeX (Fin tp)) with ip by (symmetry; apply (lt_prefix_Fin tr tp)).
  pose proof fcastmv_fin as Hfc. destruct (fcastmv timeX dtX yX yerrX p omX bX SVX (Fin tp) ip) as [m1 v1].
  injection Hfc. intros -> ->. clear Hfc.
  assert (length timeX = n) as El by (unfold timeX; apply map_length). rewrite El.
  assert (v0 p b V E t e ip tp <> 0) as Hv.
  { replace (v0 p b V E t e ip tp) with (vf p b V E t' e' ip) by (symmetry; apply v0_vf). apply pos''. pose proof ip_le. lia. }
  destruct (Nat.eqb_spec ip n) as [Hn|Hn]; [reflexivity|].
  set (M := m0 p b V E t e y ip tp) in *. set (v := v0 p b V E t e ip tp) in *.
  assert (1 / v <> 0) as Hv1.
  { unfold Rdiv. rewrite Rmult_1_l. apply Rinv_neq_0_compat, Hv. }
  assert (fdiv AX (fofZ AX 1) (Fin v) = Fin (1 / v)) as E1.
  { change (fofZ AX 1) with (Fin 1). cbn [fdiv AX]. apply fin_div, Hv. }
  rewrite E1.
  assert (fdiv AX (fmul AX (Fin M) (Fin (1 / v))) (Fin (1 / v)) = Fin M) as E2.
  { cbn [fdiv fmul AX xmul]. rewrite fin_div by exact Hv1. f_equal. field. exact Hv. }
  rewrite E2.
  pose proof (pacc_fin (n - ip) ltac:(pose proof ip_le; lia)) as Ha. fold M v in Ha.
  replace (fmul AX (Fin M) (Fin (1 / v))) with (Fin (M * (1 / v))) by reflexivity.
  match type of Ha with _ = ?r => match goal with |- context [match ?q with pair _ _ => _ end] => replace q with r by (symmetry; exact Ha) end end.
  pose proof (accR_pos (n - ip) ltac:(pose proof ip_le; lia)) as Hp.
  cbv zeta. 
  assert (fdiv AX (fofZ AX 1) (Fin (snd (accR p b V E t e y ip tp (n - ip)))) = Fin (1 / snd (accR p b V E t e y ip tp (n - ip)))) as E3.
  { change (fofZ AX 1) with (Fin 1). cbn [fdiv AX]. apply fin_div. lra. }
  rewrite E3. reflexivity.
Qed.
End Pred.
End Data.
End X.
