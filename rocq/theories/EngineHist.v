(** Steps: what a rejection changes, acceptance and detailed balance, histories of the adaptation. *)
From Coq Require Import Reals List Arith ZArith Bool Lra Lia.
From Verif Require Import Arith Res ListLemmas Spec Gauss Emb Cx KFpProof EngineModel EngineSpec EngineProof EngineInv CholProof RamProof.
Import ListNotations.

Set Implicit Arguments.
Unset Strict Implicit.

(** ** Adaptation stops, rejections change nothing: every arithmetic *)
Section Any.
Variable A : Arith.
Variable R0 : rng A.
Variable X : Type.
Variable P : methodsP R0 X (list (F A)).
Variable draw : F A -> gen R0 -> F A * gen R0.
Local Notation param := (param A X (list (F A))).
Local Notation sys := (sys R0 X).
Local Notation "x ⊖ y" := (fsub A x y) (at level 50, left associativity).
Local Notation "x ⊕ y" := (fadd A x y) (at level 50, left associativity).
Local Notation "x ⊗ y" := (fmul A x y) (at level 40, left associativity).
Local Notation "x ⊘ y" := (fdiv A x y) (at level 40, left associativity).
Local Notation "# z" := (fofZ A z) (at level 5).

Lemma ram_accept_keeps r (w : param) new g a r1 w1 g2 : ram_accept P r w new g = Ok (a, r1, w1, g2) ->
  r_chol r1 = r_chol r /\ r_niter r1 = r_niter r /\ r_maxiter r1 = r_maxiter r.
Proof.
  unfold ram_accept. intros E. apply bind_Ok in E. destruct E as ([l w2] & _ & E). destruct (negb _); [injection E as _ <- _ _; repeat split|].
  destruct (runiform _ _ g) as [u g1]. destruct (flt A u _); injection E as _ <- _ _; repeat split.
Qed.
Lemma ram_step_count r (w : param) g r' w' g' : ram_step P draw r w g = Ok (r', w', g') ->
  r_niter r' = S (r_niter r) /\ r_maxiter r' = r_maxiter r /\ (r_maxiter r <= r_niter r -> r_chol r' = r_chol r).
Proof.
  unfold ram_step. destruct (draws _ _ g) as [u g1]. intros E.
  apply bind_Ok in E. destruct E as (sc & _ & E). apply bind_Ok in E. destruct E as (new & _ & E).
  apply bind_Ok in E. destruct E as ([[[a r1] w1] g2] & Ea & E). apply bind_Ok in E. destruct E as (w2 & _ & E).
  apply bind_Ok in E. destruct E as (r2 & Er & E). injection E as <- _ _. cbn [r_niter r_maxiter r_chol].
  destruct (ram_accept_keeps Ea) as (H1 & H2 & H3). unfold ram_adapt in Er.
  destruct (Nat.ltb_spec (r_niter r1) (r_maxiter r1)) as [Hlt|Hge]; cbn [andb] in Er.
  - destruct (ffin A (r_alpha r1)); [|injection Er as <-; repeat split; intros; congruence].
    apply bind_Ok in Er. destruct Er as ([L v] & _ & Er). injection Er as <-. cbn. split; [congruence|]. split; [congruence|]. lia.
  - injection Er as <-. repeat split; intros; congruence.
Qed.
(** [srel k s s']: s' is s after k DoStep() calls *)
Definition srel (k : nat) (s s' : step A) : Prop :=
  match s, s' with
  | SRam i r, SRam i' r' => i' = i /\ r_niter r' = k + r_niter r /\ r_maxiter r' = r_maxiter r /\ (r_maxiter r <= r_niter r -> r_chol r' = r_chol r)
  | SExch i _, SExch i' _ => i' = i
  | _, _ => False
  end.
Lemma srel_refl s : srel 0 s s.
Proof. destruct s; cbn; repeat split; reflexivity. Qed.
Lemma srel_trans k m a b c : srel k a b -> srel m b c -> srel (m + k) a c.
Proof.
  destruct a, b, c; cbn; try contradiction; try congruence. intros (A1 & A2 & A3 & A4) (B1 & B2 & B3 & B4).
  split; [congruence|]. split; [lia|]. split; [congruence|]. intros H. rewrite B4 by lia. apply A4, H.
Qed.
Lemma do_step_srel s ws g s' ws' g' : do_step P draw s ws g = Ok (s', ws', g') -> srel 1 s s'.
Proof.
  destruct s as [i r|[|j] e]; cbn [do_step]; intros E; [|discriminate|].
  - apply bind_Ok in E. destruct E as (w & _ & E). apply bind_Ok in E. destruct E as ([[r' w'] g1] & E1 & E). injection E as <- _ _.
    destruct (ram_step_count E1) as (H1 & H2 & H3). cbn. repeat split; assumption.
  - apply bind_Ok in E. destruct E as (w & _ & E). apply bind_Ok in E. destruct E as (o & _ & E).
    apply bind_Ok in E. destruct E as ([[[e' w'] o'] g1] & _ & E). injection E as <- _ _. reflexivity.
Qed.
Lemma in_order_srel ss ws g ss' ws' g' : in_order P draw ss ws g ss' ws' g' -> Forall2 (srel 1) ss ss'.
Proof. intros H. induction H as [|s ss ws g s' ws1 g1 ss' ws2 g2 E _ IH]; constructor; [exact (do_step_srel E)|exact IH]. Qed.
Lemma sweeps_srel n y y' : sweeps P draw n y y' -> Forall2 (srel n) (y_steps y) (y_steps y').
Proof.
  intros H. induction H as [y|n y y1 y2 _ IH H].
  - induction (y_steps y); constructor; [apply srel_refl|assumption].
  - apply in_order_srel in H. clear -IH H. revert IH H. generalize (y_steps y) (y_steps y1) (y_steps y2). intros a b c Hab Hbc.
    revert c Hbc. induction Hab as [|x z a b Hxz _ IHab]; intros c Hbc; inversion Hbc; subst; constructor; [|apply IHab; assumption].
    change (S n) with (1 + n). eapply srel_trans; eassumption.
Qed.
(** every AdaptiveMetro step stops adapting after b sweeps *)
Definition stops_after (b : nat) (ss : list (step A)) : Prop :=
  forall i r, In (SRam i r) ss -> r_maxiter r <= r_niter r + b.
Lemma Forall2_chols k ss ss' : Forall2 (srel k) ss ss' -> (forall i r, In (SRam i r) ss -> r_maxiter r <= r_niter r) -> chols ss' = chols ss.
Proof.
  intros H. induction H as [|s s' ss ss' Hs _ IH]; intros Hr; [reflexivity|]. destruct s as [i r|i e], s' as [i' r'|i' e']; cbn in Hs; try contradiction; cbn [chols].
  - destruct Hs as (_ & _ & _ & Hc). rewrite Hc by (apply (Hr i), or_introl, eq_refl). f_equal. apply IH. intros j r0 Hin. apply (Hr j), or_intror, Hin.
  - apply IH. intros j r0 Hin. apply (Hr j), or_intror, Hin.
Qed.
Theorem adaptation_stops b m y0 yb y' : stops_after b (y_steps y0) -> sweeps P draw b y0 yb -> sweeps P draw m yb y' ->
  chols (y_steps y') = chols (y_steps yb).
Proof.
  intros Hs Hb Hm. apply (Forall2_chols (sweeps_srel Hm)). apply sweeps_srel in Hb. clear Hm. revert Hs Hb.
  generalize (y_steps y0) (y_steps yb). intros ss ss' Hs Hb. unfold stops_after in Hs.
  induction Hb as [|s s' ss ss' Hss _ IH]; intros i r Hin; [destruct Hin|]. destruct Hin as [->|Hin].
  - destruct s as [i0 r0|]; cbn in Hss; [|contradiction]. destruct Hss as (_ & H1 & H2 & _). pose proof (Hs _ _ (or_introl eq_refl)). lia.
  - apply (IH (fun j r0 H => Hs j r0 (or_intror H)) i r Hin).
Qed.

(** ** Rejections (C37) *)
Definition chain (w : param) : list (F A) * F A := (w_value w, w_logpost w).
Lemma upd_same_map T U (f : T -> U) l i x y : nth_error l i = Some x -> f y = f x -> map f (upd l i y) = map f l.
Proof.
  revert i; induction l as [|a l IH]; intros [|i] Hn Hf; cbn in *; try discriminate; [injection Hn as ->; rewrite Hf; reflexivity|].
  rewrite (IH i Hn Hf). reflexivity.
Qed.
Theorem ram_reject i r ws g w unit g1 sc new l x s' ws' g' :
  nth_error ws i = Some w ->
  draws (List.length (w_value w)) (draw (#0)) g = (unit, g1) -> mtmul (r_chol r) unit = Ok sc -> vadd A (w_value w) sc = Ok new ->
  o_LogDensity P (w_obj w) new = Ok (l, x) ->
  ffin A ((l ⊖ w_logpost w) ⊘ w_temp w) = false \/
  flt A (fst (runiform (#0) (#1) g1)) (fmin A (fexp A ((l ⊖ w_logpost w) ⊘ w_temp w)) (#1)) = false ->
  do_step P draw (SRam i r) ws g = Ok (s', ws', g') ->
  map chain ws' = map chain ws /\ (ffin A ((l ⊖ w_logpost w) ⊘ w_temp w) = false -> g' = g1).
Proof.
  intros Hn Hd Hm Hv HL Hrej E. cbn [do_step] in E. rewrite (vgetU_nth' _ _ Hn) in E. cbn [bind] in E.
  apply bind_Ok in E. destruct E as ([[r' w'] g0] & E1 & E). injection E as <- <- <-.
  unfold ram_step in E1. rewrite Hd, Hm in E1. cbn [bind] in E1. rewrite Hv in E1. cbn [bind] in E1.
  unfold ram_accept, LD in E1. rewrite HL in E1. cbn [bind w_logpost w_temp set_obj] in E1.
  destruct (ffin A ((l ⊖ w_logpost w) ⊘ w_temp w)) eqn:Ef; cbn [negb] in E1.
  - destruct Hrej as [Hrej|Hrej]; [discriminate|]. destruct (runiform (#0) (#1) g1) as [u g2] eqn:Eu. cbn [fst] in Hrej. rewrite Hrej in E1. cbn [bind] in E1.
    apply bind_Ok in E1. destruct E1 as (r2 & _ & E1). injection E1 as _ <- <-. split; [|discriminate]. apply (upd_same_map Hn). reflexivity.
  - cbn [bind] in E1. apply bind_Ok in E1. destruct E1 as (r2 & _ & E1). injection E1 as _ <- <-. split; [|reflexivity]. apply (upd_same_map Hn). reflexivity.
Qed.
Theorem exch_reject j e ws g w o s' ws' g' :
  nth_error ws (S j) = Some w -> nth_error ws j = Some o ->
  (let a := fmin A (fexp A (#1 ⊘ w_temp w ⊗ (w_logpost o ⊖ w_logpost w) ⊕ #1 ⊘ w_temp o ⊗ (w_logpost w ⊖ w_logpost o))) (#1) in
   flt A (fst (runiform (#0) (#1) g)) (if ffin A a then a else #0) = false) ->
  do_step P draw (SExch (S j) e) ws g = Ok (s', ws', g') -> ws' = ws.
Proof.
  intros Hw Ho Hr E. cbn zeta in Hr. cbn [do_step] in E. rewrite (vgetU_nth' _ _ Hw), (vgetU_nth' _ _ Ho) in E. cbn [bind] in E.
  apply bind_Ok in E. destruct E as ([[[e' w'] o'] g1] & E1 & E). injection E as _ <- _.
  unfold exch_step in E1. destruct (runiform (#0) (#1) g) as [u g2]. cbn [fst] in Hr.
  replace (if negb (ffin A (fmin A (fexp A (#1 ⊘ w_temp w ⊗ (w_logpost o ⊖ w_logpost w) ⊕ #1 ⊘ w_temp o ⊗ (w_logpost w ⊖ w_logpost o))) (#1))) then #0 else
     fmin A (fexp A (#1 ⊘ w_temp w ⊗ (w_logpost o ⊖ w_logpost w) ⊕ #1 ⊘ w_temp o ⊗ (w_logpost w ⊖ w_logpost o))) (#1)) with
    (if ffin A (fmin A (fexp A (#1 ⊘ w_temp w ⊗ (w_logpost o ⊖ w_logpost w) ⊕ #1 ⊘ w_temp o ⊗ (w_logpost w ⊖ w_logpost o))) (#1)) then
     fmin A (fexp A (#1 ⊘ w_temp w ⊗ (w_logpost o ⊖ w_logpost w) ⊕ #1 ⊘ w_temp o ⊗ (w_logpost w ⊖ w_logpost o))) (#1) else #0) in E1
    by (destruct (ffin A _); reflexivity).
  rewrite Hr in E1. cbn [bind] in E1. injection E1 as _ <- <- _.
  assert (forall T (l : list T) i x, nth_error l i = Some x -> upd l i x = l) as K.
  { clear. induction l as [|a l IH]; intros [|i] x H; cbn in *; try discriminate; [congruence|]. rewrite IH by exact H. reflexivity. }
  rewrite (K _ _ _ _ Hw). apply K, Ho.
Qed.
(** a step touches only its own parameters, and an exchange only permutes *)
Theorem do_step_frame s ws g s' ws' g' : do_step P draw s ws g = Ok (s', ws', g') ->
  List.length ws' = List.length ws /\
  (forall k, k <> step_par s -> (match s with SExch i _ => k <> i - 1 | _ => True end) -> nth_error ws' k = nth_error ws k) /\
  (forall k w w', nth_error ws k = Some w -> nth_error ws' k = Some w' ->
     w_temp w' = w_temp w /\ w_track w' = w_track w /\ w_label w' = w_label w /\ w_samples w' = w_samples w /\ w_logposts w' = w_logposts w) /\
  (match s with
   | SExch i _ => map chain ws' = map chain ws \/
       (exists w o w' o', nth_error ws i = Some w /\ nth_error ws (i - 1) = Some o /\ nth_error ws' i = Some w' /\ nth_error ws' (i - 1) = Some o' /\
         chain w' = chain o /\ chain o' = chain w)
   | _ => True end).
Proof.
  intros E. split; [exact (do_step_len _ _ _ _ _ E)|]. destruct s as [i r|[|j] e]; cbn [do_step] in E; [|discriminate|].
  - apply bind_Ok in E. destruct E as (w & Ew & E). apply bind_Ok in E. destruct E as ([[r' w'] g1] & E1 & E). injection E as _ <- _. apply vgetU_nth in Ew.
    cbn [step_par]. split; [|split; [|exact I]].
    + intros k Hk _. rewrite nth_error_upd. destruct (Nat.eqb_spec i k); [congruence|reflexivity].
    + intros k wk wk' Hk Hk'. rewrite nth_error_upd in Hk'. destruct (Nat.eqb_spec i k) as [->|]; [|assert (wk' = wk) by congruence; subst; repeat split].
      rewrite Ew in Hk'. injection Hk' as <-. assert (wk = w) by congruence. subst wk.
      unfold ram_step in E1. destruct (draws _ _ g) as [u g2]. apply bind_Ok in E1. destruct E1 as (sc & _ & E1). apply bind_Ok in E1. destruct E1 as (new & _ & E1).
      apply bind_Ok in E1. destruct E1 as ([[[a r1] w1] g3] & Ea & E1). apply bind_Ok in E1. destruct E1 as (w2 & Es & E1). apply bind_Ok in E1. destruct E1 as (r2 & _ & E1).
      injection E1 as _ <- _. assert (exists x, w1 = set_obj w x) as [x ->].
      { unfold ram_accept, LD in Ea. apply bind_Ok in Ea. destruct Ea as ([l w3] & EL & Ea). apply bind_Ok in EL. destruct EL as ([l0 x] & _ & Q). injection Q as <- <-.
        destruct (negb _); [injection Ea as _ _ <- _; exists x; reflexivity|]. destruct (runiform _ _ g2) as [uu g4]. destruct (flt A uu _); injection Ea as _ _ <- _; exists x; reflexivity. }
      destruct a; [|injection Es as <-; repeat split]. unfold Save in Es. apply bind_Ok in Es. destruct Es as ([? ?] & _ & Q). injection Q as <-. repeat split.
  - apply bind_Ok in E. destruct E as (w & Ew & E). apply bind_Ok in E. destruct E as (o & Eo & E).
    apply bind_Ok in E. destruct E as ([[[e' w'] o'] g1] & E1 & E). injection E as _ <- _. apply vgetU_nth in Ew. apply vgetU_nth in Eo.
    cbn [step_par]. replace (S j - 1) with j by lia.
    assert (forall k, nth_error (upd (upd ws (S j) w') j o') k = if j =? k then Some o' else if S j =? k then Some w' else nth_error ws k) as Hnth.
    { intros k. rewrite !nth_error_upd. destruct (Nat.eqb_spec (S j) j); [lia|]. rewrite Eo, Ew. reflexivity. }
    assert (w_temp w' = w_temp w /\ w_track w' = w_track w /\ w_label w' = w_label w /\ w_samples w' = w_samples w /\ w_logposts w' = w_logposts w /\
            w_temp o' = w_temp o /\ w_track o' = w_track o /\ w_label o' = w_label o /\ w_samples o' = w_samples o /\ w_logposts o' = w_logposts o) as Hst.
    { destruct (exch_step_spec E1) as [[-> ->]|(x & _ & -> & ->)]; repeat split. }
    split; [|split].
    + intros k Hk Hk2. rewrite Hnth. destruct (Nat.eqb_spec j k); [congruence|]. destruct (Nat.eqb_spec (S j) k); [congruence|reflexivity].
    + intros k wk wk' Hk Hk'. rewrite Hnth in Hk'. destruct (Nat.eqb_spec j k) as [<-|]; [assert (wk = o) by congruence; subst wk; injection Hk' as <-; tauto|].
      destruct (Nat.eqb_spec (S j) k) as [<-|]; [assert (wk = w) by congruence; subst wk; injection Hk' as <-; tauto|].
      assert (wk' = wk) by congruence. subst wk'. repeat split.
    + destruct (exch_step_spec E1) as [[Hw1 Ho1]|(x & _ & Hw1 & Ho1)].
      * left. subst w' o'. rewrite (upd_same_map (x := o)); [rewrite (upd_same_map (x := w)); [reflexivity|exact Ew|reflexivity]| |reflexivity].
        rewrite nth_error_upd. destruct (Nat.eqb_spec (S j) j); [lia|exact Eo].
      * right. exists w, o, w', o'. split; [exact Ew|]. split; [exact Eo|]. rewrite !Hnth, Nat.eqb_refl.
        assert (j =? S j = false) as -> by (apply Nat.eqb_neq; lia). rewrite Nat.eqb_refl. subst w' o'. repeat split.
Qed.
End Any.

(** ** Acceptance and detailed balance: extended reals *)
Section Bal.
Local Open Scope R_scope.
Variable R0 : rng AX.
Variable X : Type.
Variable P : methodsP R0 X (list (F AX)).
Variable draw : F AX -> gen R0 -> F AX * gen R0.
Local Notation param := (param AX X (list (F AX))).
Local Notation sys := (sys R0 X).

(** Metropolis acceptance probability at temperature T *)
Definition metropolis (T lx ly : R) : R := Rmin 1 (exp ((ly - lx) / T)).
Theorem metropolis_balance T lx ly : 0 < T -> exp (lx / T) * metropolis T lx ly = exp (ly / T) * metropolis T ly lx.
Proof.
  intros HT. unfold metropolis.
  assert (forall a b, exp (a / T) * Rmin 1 (exp ((b - a) / T)) = Rmin (exp (a / T)) (exp (b / T))) as K.
  { intros a b. assert (exp (b / T) = exp (a / T) * exp ((b - a) / T)) as E by (rewrite <- exp_plus; f_equal; field; lra).
    rewrite E. pose proof (exp_pos (a / T)). pose proof (exp_pos ((b - a) / T)). unfold Rmin.
    destruct (Rle_dec 1 (exp ((b - a) / T))); destruct (Rle_dec (exp (a / T)) (exp (a / T) * exp ((b - a) / T))); try lra; nra. }
  rewrite !K. apply Rmin_comm.
Qed.
Lemma accept_prob_Fin T lx ly : 0 < T -> accept_prob (Fin ly) (Fin lx) (Fin T) = metropolis T lx ly.
Proof.
  intros HT. unfold accept_prob. cbn [xsub]. rewrite fin_div by lra. unfold metropolis. apply Rmin_comm.
Qed.

(** real vectors *)
Definition radd (x y : list R) : list R := map (fun p => fst p + snd p) (combine x y).
Definition ropp (x : list R) : list R := map Ropp x.
Lemma vadd_Fin x y : length x = length y -> vadd AX (map Fin x) (map Fin y) = Ok (map Fin (radd x y)).
Proof.
  intros H. unfold vadd. change (F AX) with xr. rewrite !map_length, H, Nat.eqb_refl. f_equal. unfold radd. clear H. revert y.
  induction x as [|a x IH]; intros [|b y]; try reflexivity. cbn. rewrite IH. reflexivity.
Qed.
Lemma radd_back x s : length x = length s -> radd (radd x s) (ropp s) = x.
Proof.
  revert s; induction x as [|a x IH]; intros [|b s] H; try discriminate; [reflexivity|]. unfold radd, ropp in *. cbn in *. rewrite IH by lia. f_equal. ring.
Qed.
(** S^T u *)
Definition rtmul (n : nat) (L : list (list R)) (u : list R) : list R := vbuild n (tmul n (rent L) (rv u)).
Lemma rtmul_opp n L u : rtmul n L (ropp u) = ropp (rtmul n L u).
Proof.
  unfold rtmul, ropp at 2. rewrite map_vbuild. apply vbuild_ext. intros j _. unfold tmul.
  transitivity (Rsum (fun i => -1 * (rent L i j * rv u i)) n); [|rewrite Rsum_scal; ring]. apply Rsum_ext. intros i _. unfold rv, ropp.
  transitivity (rent L i j * nth i (map Ropp u) (- 0)); [f_equal; f_equal; ring|]. rewrite map_nth. ring.
Qed.

(** One RAM step from the value x with unit proposal u: the move is made exactly when the uniform number is below the
    Metropolis probability. *)
Theorem ram_move n r (w : param) g u g1 uu g2 L x lx ly o T r' w' g' : 0 < T ->
  good_chol n (r_chol r) L -> length x = n -> w_value w = map Fin x -> w_logpost w = Fin lx -> w_temp w = Fin T ->
  draws n (draw (Fin 0)) g = (map Fin u, g1) -> length u = n ->
  o_LogDensity P (w_obj w) (map Fin (radd x (rtmul n L u))) = Ok (Fin ly, o) ->
  @runiform AX R0 (Fin 0) (Fin 1) g1 = (Fin uu, g2) ->
  ram_step P draw r w g = Ok (r', w', g') ->
  w_value w' = map Fin (if Rlt_dec uu (metropolis T lx ly) then radd x (rtmul n L u) else x) /\
  r_naccept r' = (if Rlt_dec uu (metropolis T lx ly) then S (r_naccept r) else r_naccept r) /\ g' = g2.
Proof.
  intros HT (EL & HS & _) Hx Hv Hlx HTw Hdr Hu HL Hun E. unfold ram_step in E. rewrite Hv in E. change (F AX) with xr in E. rewrite map_length, Hx in E.
  change (fofZ AX 0) with (Fin 0) in E. rewrite Hdr in E.
  assert (mtmul (A := AX) (r_chol r) (map Fin u) = Ok (map Fin (rtmul n L u))) as Em.
  { etransitivity; [exact (f_equal (fun M => mtmul (A := AX) M (map Fin u)) EL)|]. apply mtmul_Fin; assumption. }
  apply bind_Ok in E. destruct E as (sc & Esc & E). assert (sc = map Fin (rtmul n L u)) as -> by (pose proof (eq_trans (eq_sym Esc) Em) as K; injection K as K; exact K).
  apply bind_Ok in E. destruct E as (new & Enew & E). rewrite vadd_Fin in Enew by (rewrite Hx; unfold rtmul; rewrite vbuild_len; reflexivity). injection Enew as <-.
  apply bind_Ok in E. destruct E as ([[[a r1] w1] g3] & Ea & E). apply bind_Ok in E. destruct E as (w2 & Es & E). apply bind_Ok in E. destruct E as (r2 & Er & E).
  injection E as <- <- <-. unfold ram_accept, LD in Ea. rewrite HL in Ea. cbn [bind w_logpost w_temp set_obj] in Ea. rewrite Hlx, HTw in Ea.
  change (fdiv AX (fsub AX (Fin ly) (Fin lx)) (Fin T)) with (xdiv (Fin (ly - lx)) (Fin T)) in Ea. rewrite fin_div in Ea by lra. cbn [ffin AX xfin negb] in Ea.
  change (fofZ AX 0) with (Fin 0) in Ea. change (fofZ AX 1) with (Fin 1) in Ea. rewrite Hun in Ea.
  assert (fmin AX (fexp AX (Fin ((ly - lx) / T))) (Fin 1) = Fin (metropolis T lx ly)) as Em2.
  { unfold fmin, metropolis. cbn [flt fexp AX xexp xlt]. destruct (Rlt_dec 1 (exp ((ly - lx) / T))); [rewrite Rmin_left by lra|rewrite Rmin_right by lra]; reflexivity. }
  rewrite Em2 in Ea. cbn [flt AX xlt] in Ea.
  assert (r_naccept r2 = r_naccept r1) as Hna.
  { unfold ram_adapt in Er. destruct (_ && _); [|congruence]. apply bind_Ok in Er. destruct Er as ([? ?] & _ & Er). injection Er as <-. reflexivity. }
  cbn [r_naccept]. destruct (Rlt_dec uu (metropolis T lx ly)); injection Ea as <- <- <- <-.
  - unfold Save in Es. apply bind_Ok in Es. destruct Es as ([? ?] & _ & Q). injection Q as <-. cbn. repeat split. exact Hna.
  - injection Es as <-. cbn. repeat split; [exact Hv|exact Hna].
Qed.

(** density (up to a constant) of the unit proposals: independent Student t variables with 8 degrees of freedom *)
Definition student8 (u : list R) : R := fold_right Rmult 1 (map (fun z => Rpower (1 + z * z / 8) (- (9 / 2))) u).
Lemma student8_even u : student8 (ropp u) = student8 u.
Proof. unfold student8, ropp. induction u as [|z u IH]; [reflexivity|]. cbn. rewrite IH. f_equal. f_equal. f_equal. field. Qed.

(** the exchange *)
Definition exch_prob (Tw To lw lo : R) : R := Rmin 1 (exp (1 / Tw * (lo - lw) + 1 / To * (lw - lo))).
Theorem exch_balance Tw To lw lo : 0 < Tw -> 0 < To ->
  exp (lw / Tw) * exp (lo / To) * exch_prob Tw To lw lo = exp (lo / Tw) * exp (lw / To) * exch_prob Tw To lo lw.
Proof.
  intros H1 H2. unfold exch_prob. rewrite <- !exp_plus.
  assert (forall p q, exp p * Rmin 1 (exp (q - p)) = Rmin (exp p) (exp q)) as K.
  { intros a b. assert (exp b = exp a * exp (b - a)) as E by (rewrite <- exp_plus; f_equal; ring).
    rewrite E. pose proof (exp_pos a). pose proof (exp_pos (b - a)). unfold Rmin.
    destruct (Rle_dec 1 (exp (b - a))); destruct (Rle_dec (exp a) (exp a * exp (b - a))); try lra; nra. }
  replace (1 / Tw * (lo - lw) + 1 / To * (lw - lo)) with ((lo / Tw + lw / To) - (lw / Tw + lo / To)) by (field; lra).
  replace (1 / Tw * (lw - lo) + 1 / To * (lo - lw)) with ((lw / Tw + lo / To) - (lo / Tw + lw / To)) by (field; lra).
  rewrite !K. apply Rmin_comm.
Qed.
Theorem exch_move e (w o : param) g Tw To lw lo uu g1 e' w' o' g' : 0 < Tw -> 0 < To ->
  w_temp w = Fin Tw -> w_temp o = Fin To -> w_logpost w = Fin lw -> w_logpost o = Fin lo ->
  @runiform AX R0 (Fin 0) (Fin 1) g = (Fin uu, g1) -> exch_step P e w o g = Ok (e', w', o', g') ->
  g' = g1 /\ w_temp w' = w_temp w /\ w_temp o' = w_temp o /\
  if Rlt_dec uu (exch_prob Tw To lw lo)
  then w_value w' = w_value o /\ w_logpost w' = w_logpost o /\ w_value o' = w_value w /\ w_logpost o' = w_logpost w
  else w' = w /\ o' = o.
Proof.
  intros H1 H2 Ew Eo Lw Lo Hun E. unfold exch_step in E. rewrite Ew, Eo, Lw, Lo in E. change (fofZ AX 0) with (Fin 0) in E. change (fofZ AX 1) with (Fin 1) in E.
  rewrite Hun in E.
  assert (fmin AX (fexp AX (fadd AX (fmul AX (fdiv AX (Fin 1) (Fin Tw)) (fsub AX (Fin lo) (Fin lw))) (fmul AX (fdiv AX (Fin 1) (Fin To)) (fsub AX (Fin lw) (Fin lo))))) (Fin 1)
     = Fin (exch_prob Tw To lw lo)) as Em.
  { cbn [fdiv AX]. rewrite !fin_div by lra. unfold fmin, exch_prob. cbn [fsub fmul fadd flt fexp AX xsub xmul xadd xexp xlt].
    destruct (Rlt_dec 1 _); [rewrite Rmin_left by lra|rewrite Rmin_right by lra]; reflexivity. }
  rewrite Em in E. cbn [ffin AX xfin negb flt xlt] in E. destruct (Rlt_dec uu (exch_prob Tw To lw lo)).
  - apply bind_Ok in E. destruct E as ([[w1 o1] na] & E1 & E). injection E as _ <- <- <-. apply bind_Ok in E1. destruct E1 as (w2 & Es & E1).
    apply bind_Ok in E1. destruct E1 as (o2 & Es2 & E1). injection E1 as <- <- _.
    unfold Save in Es. apply bind_Ok in Es. destruct Es as ([? ?] & _ & Q). injection Q as <-.
    unfold SaveDerived in Es2. apply bind_Ok in Es2. destruct Es2 as (? & _ & Q). injection Q as <-. cbn. repeat split; [symmetry; exact Lo|symmetry; exact Lw].
  - cbn [bind] in E. injection E as _ <- <- <-. repeat split; congruence.
Qed.
(** an exchange involving a non-finite log-posterior ratio never happens *)
Theorem exch_nonfinite e (w o : param) g uu g1 e' w' o' g' :
  xfin (fmin AX (fexp AX (fadd AX (fmul AX (fdiv AX (Fin 1) (w_temp w)) (fsub AX (w_logpost o) (w_logpost w)))
     (fmul AX (fdiv AX (Fin 1) (w_temp o)) (fsub AX (w_logpost w) (w_logpost o))))) (Fin 1)) = false ->
  0 <= uu -> @runiform AX R0 (Fin 0) (Fin 1) g = (Fin uu, g1) -> exch_step P e w o g = Ok (e', w', o', g') -> w' = w /\ o' = o.
Proof.
  intros Hf Hu Hun E. unfold exch_step in E. change (fofZ AX 0) with (Fin 0) in E. change (fofZ AX 1) with (Fin 1) in E. rewrite Hun in E.
  change (ffin AX) with xfin in E. change (fofZ AX 1) with (Fin 1) in E. rewrite Hf in E. cbn [negb flt AX xlt] in E.
  destruct (Rlt_dec uu 0); [lra|]. cbn [bind] in E. injection E as _ <- <- _. split; reflexivity.
Qed.

(** ** Histories of the adaptation (C40) *)
Variable n : nat.
Variable t : R.
Hypothesis Ht : 0 < t < 1.
(** every vector of unit proposals is finite and not zero *)
Hypothesis Hdraw : forall g, exists u g1, draws n (draw (Fin 0)) g = (map Fin u, g1) /\ nonzero u.
Definition good_state (ws : list param) (ss : list (step AX)) : Prop :=
  Forall (fun w => List.length (w_value w) = n) ws /\ (forall i r, In (SRam i r) ss -> good_ram n t r).
Lemma do_step_good s ws g s' ws' g' : Forall (fun w => List.length (w_value w) = n) ws ->
  (forall i r, s = SRam i r -> good_ram n t r) -> do_step P draw s ws g = Ok (s', ws', g') ->
  Forall (fun w => List.length (w_value w) = n) ws' /\ (forall i r, s' = SRam i r -> good_ram n t r).
Proof.
  intros H Hr E. pose proof (proj1 (Forall_nth_error _ _) H) as Hn. destruct s as [i r|[|j] e]; cbn [do_step] in E; [|discriminate|].
  - apply bind_Ok in E. destruct E as (w & Ew & E). apply bind_Ok in E. destruct E as ([[r' w'] g1] & E1 & E). injection E as <- <- _. apply vgetU_nth in Ew.
    destruct (Hr i r eq_refl) as (Hg & Htg & L & HL). destruct (Hdraw g) as (u & g2 & Hd & Hnz).
    destruct (ram_step_vihola R0 X P draw n t r w g u g2 r' w' g1 L Ht HL Hg Htg (Hn _ _ Ew) Hd Hnz E1) as (G & _ & _ & Hl & _).
    split; [apply Forall_upd; assumption|]. intros i0 r0 Q. injection Q as <- <-. exact G.
  - apply bind_Ok in E. destruct E as (w & Ew & E). apply bind_Ok in E. destruct E as (o & Eo & E).
    apply bind_Ok in E. destruct E as ([[[e' w'] o'] g1] & E1 & E). injection E as <- <- _. apply vgetU_nth in Ew. apply vgetU_nth in Eo.
    pose proof (Hn _ _ Ew) as Lw. pose proof (Hn _ _ Eo) as Lo. split; [|discriminate].
    destruct (exch_step_spec E1) as [[-> ->]|(x & _ & -> & ->)]; (apply Forall_upd; [apply Forall_upd; [exact H|]|]); assumption.
Qed.
Lemma in_order_good ss ws g ss' ws' g' : in_order P draw ss ws g ss' ws' g' -> good_state ws ss -> good_state ws' ss'.
Proof.
  intros H. induction H as [|s ss ws g s' ws1 g1 ss' ws2 g2 E _ IH]; intros [H1 H2]; [split; [exact H1|intros i r []]|].
  destruct (do_step_good H1 (fun i r Q => H2 i r (or_introl Q)) E) as [K1 K2].
  destruct (IH (Logic.conj K1 (fun i r Q => H2 i r (or_intror Q)))) as [J1 J2]. split; [exact J1|].
  intros i r [Q|Q]; [exact (K2 i r Q)|exact (J2 i r Q)].
Qed.
Theorem sweeps_good k y y' : sweeps P draw k y y' -> good_state (y_pars y) (y_steps y) -> good_state (y_pars y') (y_steps y').
Proof. intros H. induction H as [|k y y1 y2 _ IH H]; intros H0; [exact H0|]. exact (in_order_good H (IH H0)). Qed.
Theorem good_cov (r : ram AX) : good_ram n t r -> exists C, GetCovariance r = FinM C /\ square n C /\ pd n (rent C) /\
  forall i j, (i < n)%nat -> (j < n)%nat -> rent C i j = rent C j i.
Proof.
  intros (_ & _ & L & HL). exists (mbuild n n (gram n (rent L))). split; [apply cov_of, HL|]. destruct HL as (_ & _ & Hu & Hd).
  assert (forall i j, (i < n)%nat -> (j < n)%nat -> rent (mbuild n n (gram n (rent L))) i j = gram n (rent L) i j) as E.
  { intros i j Hi Hj. unfold rent, mbuild. rewrite vbuild_nth by exact Hi. apply vbuild_nth, Hj. }
  split; [split; [apply vbuild_len|intros i Hi; unfold mbuild; rewrite vbuild_nth by exact Hi; apply vbuild_len]|]. split.
  - apply (pd_ext n (gram n (rent L))); [intros i j Hi Hj; symmetry; apply E; assumption|]. apply gram_pd; assumption.
  - intros i j Hi Hj. rewrite !E by assumption. unfold gram. apply Rsum_ext. intros; ring.
Qed.
End Bal.
