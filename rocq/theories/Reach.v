(** Every point of the prior region can be the next value of a chain (C121). *)
From Coq Require Import Reals List Arith ZArith Bool String Lra Lia Permutation.
From Coquelicot Require Import Complex.
From Verif Require Import Arith Res ListLemmas KFModel KF1Proof Spec Gauss Emb History InitProof OUpd SimProof KF1R KF1X KF1Main KF1More.
From Verif Require Import Cx KFpModel KFpProof KFpX KFpMain KFpTop SpecModel CarpackModel RootsProof PriorProof LogLikProof LogLikMain CarpackTop CarpackRefute.
From Verif Require Import EngineModel StartModel EngineSpec EngineProof EngineInv CholProof RamProof EngineHist EngineClass EngineDriver EngineTop StartProof TotalProof TotalClass TotalTop EngineAX Start1Proof SeedProof EngineRuns SeedRefute EngineReal EndToEnd.
Import ListNotations.
Local Open Scope R_scope.
Local Notation length := List.length.

Set Implicit Arguments.
Unset Strict Implicit.

(** ** Forward substitution *)
Section Tri.
Variable n : nat.
Variable M : nat -> nat -> R.
Hypothesis Hup : CholProof.upper n M.
Hypothesis Hd : posdiag n M.

Lemma tmul_low (u : nat -> R) j : (j < n)%nat -> tmul n M u j = Rsum (fun i => M i j * u i) j + M j j * u j.
Proof using Hup.
  intros Hj. unfold tmul. assert (forall k, (j < k <= n)%nat -> Rsum (fun i => M i j * u i) k = Rsum (fun i => M i j * u i) (S j)) as K.
  { intros k. induction k as [|k IH]; intros H; [lia|]. destruct (Nat.eq_dec k j) as [->|N]; [reflexivity|].
    cbn [Rsum]. rewrite IH by lia. rewrite (Hup (i := k) (j := j)) by lia. cbn [Rsum]. ring. }
  rewrite (K n) by lia. reflexivity.
Qed.
Lemma tri_solve (d : nat -> R) m : (m <= n)%nat -> exists u : nat -> R, forall j, (j < m)%nat -> tmul n M u j = d j.
Proof using Hup Hd.
  induction m as [|m IH]; intros Hm; [exists d; intros; lia|]. destruct IH as (u & Hu); [lia|].
  exists (fun i => if (i =? m)%nat then (d m - Rsum (fun i => M i m * u i) m) / M m m else u i). intros j Hj.
  rewrite tmul_low by lia.
  rewrite (Rsum_ext _ (fun i => M i j * u i)) by (intros i Hi; destruct (Nat.eqb_spec i m); [lia|reflexivity]).
  destruct (Nat.eqb_spec j m) as [->|N].
  - pose proof (Hd (i := m)) as Hp. field. assert (0 < M m m) by (apply Hp; lia). lra.
  - rewrite <- tmul_low by lia. apply Hu. lia.
Qed.
Lemma tri_inj (u v : nat -> R) : (forall j, (j < n)%nat -> tmul n M u j = tmul n M v j) -> forall j, (j < n)%nat -> u j = v j.
Proof using Hup Hd.
  intros H j. induction j as [j IH] using lt_wf_ind. intros Hj. specialize (H j Hj). rewrite !tmul_low in H by exact Hj.
  rewrite (Rsum_ext (fun i => M i j * u i) (fun i => M i j * v i)) in H by (intros i Hi; rewrite IH by lia; reflexivity).
  assert (0 < M j j) by (apply Hd, Hj). apply (Rmult_eq_reg_l (M j j)); lra.
Qed.
End Tri.

(** the trial move from x to y: exactly one vector of draws proposes it *)
Lemma propose_any n L (x y : list R) : CholProof.upper n (rent L) -> posdiag n (rent L) -> length x = n -> length y = n ->
  exists u, length u = n /\ radd x (rtmul n L u) = y /\ forall u', length u' = n -> radd x (rtmul n L u') = y -> u' = u.
Proof.
  intros Hup Hd Hx Hy. destruct (@tri_solve n (rent L) Hup Hd (fun j => nth j y 0 - nth j x 0) n (le_n n)) as (f & Hf).
  assert (forall u j, (j < n)%nat -> nth j (radd x (rtmul n L u)) 0 = nth j x 0 + tmul n (rent L) (rv u) j) as Hn.
  { intros u j Hj. unfold radd. transitivity (nth j (map (fun p => fst p + snd p) (combine x (rtmul n L u))) (fst (0, 0) + snd (0, 0))).
    { f_equal. cbn. ring. } rewrite (map_nth (fun p : R * R => fst p + snd p) _ (0, 0) j), combine_nth by (unfold rtmul; rewrite vbuild_len; exact Hx). cbn [fst snd]. unfold rtmul. rewrite vbuild_nth by exact Hj. reflexivity. }
  assert (forall u, length (radd x (rtmul n L u)) = n) as HL.
  { intros u. unfold radd, rtmul. rewrite map_length, combine_length, vbuild_len, Hx. apply Nat.min_id. }
  assert (forall j, (j < n)%nat -> rv (vbuild n f) j = f j) as Hrv by (intros j Hj; unfold rv; apply vbuild_nth, Hj).
  assert (forall u j, (forall i, (i < n)%nat -> rv u i = f i) -> tmul n (rent L) (rv u) j = tmul n (rent L) f j) as Hext.
  { intros u j H. unfold tmul. apply Rsum_ext. intros i Hi. rewrite H by exact Hi. reflexivity. }
  exists (vbuild n f). split; [apply vbuild_len|]. split.
  - apply (nth_ext _ _ 0 0); [rewrite HL; symmetry; exact Hy|]. intros j Hj. rewrite HL in Hj. rewrite Hn by exact Hj. rewrite Hext by exact Hrv. rewrite Hf by exact Hj. ring.
  - intros u Hu E. apply (nth_ext _ _ 0 0); [rewrite vbuild_len; exact Hu|]. intros j Hj. rewrite Hu in Hj.
    rewrite vbuild_nth by exact Hj. apply (@tri_inj n (rent L) Hup Hd (rv u) f); [|exact Hj].
    intros k Hk. rewrite Hf by exact Hk. pose proof (Hn u k Hk) as Q. rewrite E in Q. lra.
Qed.

Lemma metropolis_pos T lx ly : 0 < metropolis T lx ly <= 1.
Proof. unfold metropolis. split; [apply Rmin_glb_lt; [lra|apply exp_pos]|apply Rmin_l]. Qed.

Lemma nth_error_ext' (T : Type) : forall l1 l2 : list T, (forall i, nth_error l1 i = nth_error l2 i) -> l1 = l2.
Proof.
  induction l1 as [|a l1 IH]; intros [|b l2] H; [reflexivity|specialize (H 0%nat); discriminate|specialize (H 0%nat); discriminate|].
  pose proof (H 0%nat) as H0. injection H0 as ->. f_equal. apply IH. intros i. exact (H (S i)).
Qed.
(** ** One step *)
Section One.
Variable R0 : rng AX.
Variable X : Type.
Variable P : methodsP R0 X (list (F AX)).
Variable draw : F AX -> gen R0 -> F AX * gen R0.
Variable ok : X -> Prop.
Variable pld : list (F AX) -> res (F AX).
Hypothesis Hld : forall x v l x', ok x -> o_LogDensity P x v = Ok (l, x') -> pld v = Ok l /\ ok x'.
Hypothesis Hld' : forall x v l, ok x -> pld v = Ok l -> exists x', o_LogDensity P x v = Ok (l, x').
Local Notation param := (param AX X (list (F AX))).

Lemma ram_adapt_ok n (r : ram AX) u sc : (0 < n)%nat -> TotalProof.square n (r_chol r) -> length sc = n -> exists r', ram_adapt r u sc = Ok r'.
Proof.
  intros Hn HS Hsc. assert (wp False False (fun _ => True) (ram_adapt r u sc)) as H.
  { unfold ram_adapt. destruct (_ && _); [|exact I]. cbv zeta. eapply wp_bind.
    - apply Chol_wp with (n := n); [exact Hn|exact HS|]. unfold vscale. rewrite map_length. exact Hsc.
    - intros [L v] _. exact I. }
  destruct (wp_total H (@safe_adapt AX r u sc)) as (r' & E & _). exists r'. exact E.
Qed.
Lemma FinM_sq n L : CholProof.square n L -> TotalProof.square n (FinM L : mat AX).
Proof.
  intros [H1 H2]. split; [unfold FinM; rewrite map_length; exact H1|]. apply Forall_forall. intros row Hin. unfold FinM in Hin. apply in_map_iff in Hin.
  destruct Hin as (l & <- & Hin). destruct (In_nth _ _ [] Hin) as (i & Hi & <-). rewrite map_length. apply H2. rewrite <- H1. exact Hi.
Qed.

(** from the value x with log-density lx to any th with log-density ly: one vector of draws proposes it, and the step takes it exactly when
    the uniform number is below the Metropolis probability, which is positive *)
Lemma ram_reach n (r : ram AX) (w : param) L (x : list R) lx T (th : list R) ly :
  (0 < n)%nat -> 0 < T -> good_chol n (r_chol r) L -> ok (w_obj w) -> length x = n -> w_value w = map Fin x -> w_logpost w = Fin lx -> w_temp w = Fin T ->
  length th = n -> pld (map Fin th) = Ok (Fin ly) ->
  exists u, length u = n /\
    (forall u', length u' = n -> ((exists sc, mtmul (r_chol r) (map Fin u') = Ok sc /\ vadd AX (w_value w) sc = Ok (map Fin th)) <-> u' = u)) /\
    forall g g1 uu g2, draws n (draw (Fin 0)) g = (map Fin u, g1) -> @runiform AX R0 (Fin 0) (Fin 1) g1 = (Fin uu, g2) ->
      exists r' w', ram_step P draw r w g = Ok (r', w', g2) /\
        w_value w' = map Fin (if Rlt_dec uu (metropolis T lx ly) then th else x) /\ w_logpost w' = Fin (if Rlt_dec uu (metropolis T lx ly) then ly else lx).
Proof.
  intros Hn HT HL Hok Hx Hv Hlx HTw Hth Hly. pose proof HL as (EL & HS & Hup & Hd).
  destruct (@propose_any n L x th Hup Hd Hx Hth) as (u & Hu & Eu & Hun).
  assert (forall u', length u' = n -> mtmul (A := AX) (r_chol r) (map Fin u') = Ok (map Fin (rtmul n L u'))) as Em.
  { intros u' Hu'. etransitivity; [exact (f_equal (fun M => mtmul (A := AX) M (map Fin u')) EL)|]. apply mtmul_Fin; assumption. }
  assert (forall u', length u' = n -> vadd AX (w_value w) (map Fin (rtmul n L u')) = Ok (map Fin (radd x (rtmul n L u')))) as Ev.
  { intros u' Hu'. etransitivity; [exact (f_equal (fun v => vadd AX v (map Fin (rtmul n L u'))) Hv)|]. apply vadd_Fin. rewrite Hx. unfold rtmul. rewrite vbuild_len. reflexivity. }
  exists u. split; [exact Hu|]. split.
  - intros u' Hu'. split.
    + intros (sc & E1 & E2). apply Hun; [exact Hu'|]. pose proof (eq_trans (eq_sym E1) (Em u' Hu')) as Q. injection Q as ->.
      pose proof (eq_trans (eq_sym E2) (Ev u' Hu')) as Q. injection Q as Q. clear - Q. revert Q. generalize (radd x (rtmul n L u')). induction th as [|a th IH]; intros [|b l] Q; cbn in Q; try discriminate; [reflexivity|].
      injection Q as -> Q. f_equal. apply IH, Q.
    + intros ->. exists (map Fin (rtmul n L u)). split; [apply Em, Hu|]. rewrite <- Eu. apply Ev, Hu.
  - intros g g1 uu g2 Hdr Hun1.
    destruct (Hld' Hok Hly) as (x1 & E1). destruct (Hld Hok E1) as [_ Hok1]. destruct (Hld' Hok1 Hly) as (x2 & E2).
    pose proof (@metropolis_pos T lx ly) as Hm.
    assert (exists r1 w1, (exists al, r1 = mkRam (r_chol r) (r_gamma r) (r_target r) (r_niter r) (if Rlt_dec uu (metropolis T lx ly) then S (r_naccept r) else r_naccept r) (r_maxiter r) al) /\
      w1 = set_obj w x1 /\ ram_accept P r w (map Fin th) g1 = Ok (if Rlt_dec uu (metropolis T lx ly) then true else false, r1, w1, g2)) as (r1 & w1 & (al & Er1) & Ew1 & Ea).
    { unfold ram_accept, LD. rewrite E1. cbn [bind w_logpost w_temp set_obj]. rewrite Hlx, HTw.
      change (fdiv AX (fsub AX (Fin ly) (Fin lx)) (Fin T)) with (xdiv (Fin (ly - lx)) (Fin T)). rewrite fin_div by lra. cbn [ffin AX xfin negb].
      change (fofZ AX 0) with (Fin 0). change (fofZ AX 1) with (Fin 1). rewrite Hun1.
      assert (fmin AX (fexp AX (Fin ((ly - lx) / T))) (Fin 1) = Fin (metropolis T lx ly)) as Em2.
      { unfold fmin, metropolis. cbn [flt fexp AX xexp xlt]. destruct (Rlt_dec 1 (exp ((ly - lx) / T))); [rewrite Rmin_left by lra|rewrite Rmin_right by lra]; reflexivity. }
      rewrite Em2. cbn [flt AX xlt]. destruct (Rlt_dec uu (metropolis T lx ly)); eexists; eexists; (split; [eexists; reflexivity|]); (split; reflexivity). }
    assert (exists r2, ram_adapt r1 (map Fin u) (map Fin (rtmul n L u)) = Ok r2) as (r2 & Er2).
    { apply ram_adapt_ok with (n := n); [exact Hn|subst r1; cbn [r_chol]; rewrite EL; apply FinM_sq, HS|]. change (F AX) with xr. rewrite map_length. unfold rtmul. apply vbuild_len. }
    unfold ram_step. assert (length (w_value w) = n) as -> by (rewrite Hv; change (F AX) with xr; rewrite map_length; exact Hx).
    change (fofZ AX 0) with (Fin 0). rewrite Hdr. rewrite (Em u Hu). cbn [bind]. rewrite (Ev u Hu). cbn [bind]. rewrite Eu. rewrite Ea. cbn [bind].
    destruct (Rlt_dec uu (metropolis T lx ly)) as [Hlt|Hge].
    + unfold Save. rewrite Ew1. cbn [w_obj set_obj]. rewrite E2. cbn [bind]. rewrite Er2. cbn [bind]. eexists; eexists. split; [reflexivity|]. split; reflexivity.
    + cbn [bind]. rewrite Er2. cbn [bind]. eexists; eexists. split; [reflexivity|]. rewrite Ew1. cbn. split; [exact Hv|exact Hlx].
Qed.

Lemma in_order_temps ss (ws : list param) g ss' ws' g' : in_order P draw ss ws g ss' ws' g' -> map (@w_temp _ _ _) ws' = map (@w_temp _ _ _) ws.
Proof using.
  intros H. induction H as [|s ss ws g s' ws1 g1 ss' ws2 g2 E _ IH]; [reflexivity|]. rewrite IH.
  destruct (do_step_frame E) as (HL & _ & Hk & _).
  apply nth_error_ext'. intros i. rewrite !nth_error_map. destruct (nth_error ws i) as [w|] eqn:Ew.
  - destruct (nth_error ws1 i) as [w1|] eqn:Ew1; [cbn; f_equal; exact (proj1 (Hk _ _ _ Ew Ew1))|].
    apply nth_error_None in Ew1. assert (i < length ws)%nat by (apply nth_error_Some; congruence). lia.
  - destruct (nth_error ws1 i) as [w1|] eqn:Ew1; [|reflexivity]. apply nth_error_None in Ew. assert (i < length ws1)%nat by (apply nth_error_Some; congruence). lia.
Qed.
End One.

(** [reaches P draw n ld ws i r]: whatever the value x of chain i, the AdaptiveMetro step r can take it to every th whose log-density ly (a relation
    [ld]) is finite: exactly one vector u of trial numbers proposes th, and with these numbers the step ends at th when the uniform number is below the
    Metropolis probability, which is positive, and at x otherwise. *)
Definition reaches {R0 : rng AX} {X : Type} (P : methodsP R0 X (list (F AX))) (draw : F AX -> gen R0 -> F AX * gen R0) (n : nat) (ld : list R -> R -> Prop)
  (ws : list (param AX X (list (F AX)))) (i : nat) (r : ram AX) : Prop :=
  exists w x lx T, nth_error ws i = Some w /\ w_value w = map Fin x /\ length x = n /\ w_logpost w = Fin lx /\ w_temp w = Fin T /\ 0 < T /\
  forall th ly, length th = n -> ld th ly -> 0 < metropolis T lx ly /\
  exists u, length u = n /\
    (forall u', length u' = n -> ((exists sc, mtmul (r_chol r) (map Fin u') = Ok sc /\ vadd AX (w_value w) sc = Ok (map Fin th)) <-> u' = u)) /\
    forall g g1 uu g2, draws n (draw (Fin 0)) g = (map Fin u, g1) -> @runiform AX R0 (Fin 0) (Fin 1) g1 = (Fin uu, g2) ->
      exists r' w', do_step P draw (SRam i r) ws g = Ok (SRam i r', upd ws i w', g2) /\
        w_value w' = map Fin (if Rlt_dec uu (metropolis T lx ly) then th else x) /\ w_logpost w' = Fin (if Rlt_dec uu (metropolis T lx ly) then ly else lx).

Section States.
Variable R0 : rng AX.
Variable X : Type.
Variable P : methodsP R0 X (list (F AX)).
Variable draw : F AX -> gen R0 -> F AX * gen R0.
Variable ok : X -> Prop.
Variable pld : list (F AX) -> res (F AX).
Hypothesis Hld : forall x v l x', ok x -> o_LogDensity P x v = Ok (l, x') -> pld v = Ok l /\ ok x'.
Hypothesis Hld' : forall x v l, ok x -> pld v = Ok l -> exists x', o_LogDensity P x v = Ok (l, x').
Variable n : nat.
Hypothesis Hn : (0 < n)%nat.
Hypothesis Hdraw : forall g, exists u g1, draws n (draw (Fin 0)) g = (map Fin u, g1) /\ nonzero u.
Local Notation param := (param AX X (list (F AX))).
Definition hot (ws : list param) : Prop := forall i w, nth_error ws i = Some w -> exists T, w_temp w = Fin T /\ 0 < T.
Definition fine (y : sys R0 X) : Prop :=
  real_state n (1 / 4) (y_pars y) (y_steps y) /\ List.Forall (inv ok pld) (y_pars y) /\ List.Forall (@finw AX X) (y_pars y) /\ hot (y_pars y).

Lemma hot_temps ws ws' : map (@w_temp AX X (list (F AX))) ws' = map (@w_temp AX X (list (F AX))) ws -> hot ws -> hot ws'.
Proof using.
  intros E H i w Hw. pose proof (f_equal (fun l => nth_error l i) E) as Q. cbn beta in Q. rewrite !nth_error_map, Hw in Q.
  destruct (nth_error ws i) as [w0|] eqn:E0; [|discriminate Q]. assert (w_temp w = w_temp w0) as -> by (injection Q as Q; exact Q). exact (H i w0 E0).
Qed.
Lemma fine_part y pre post pre' ws g : fine y -> y_steps y = pre ++ post -> in_order P draw pre (y_pars y) (y_gen y) pre' ws g ->
  real_state n (1 / 4) ws post /\ List.Forall (inv ok pld) ws /\ List.Forall (@finw AX X) ws /\ hot ws.
Proof using Hld Hdraw.
  intros ([H1 H2] & H3 & H4 & H5) Es Ho. rewrite Es in H2.
  assert (0 < 1 / 4 < 1) as Htg by lra.
  assert (real_state n (1 / 4) (y_pars y) pre) as Hp by (split; [exact H1|intros i r Hin; exact (H2 i r (in_or_app _ _ _ (or_introl Hin)))]).
  split; [split; [exact (proj1 (in_order_real Htg Hdraw Ho Hp))|intros i r Hin; exact (H2 i r (in_or_app _ _ _ (or_intror Hin)))]|].
  split; [exact (in_order_inv' Hld Ho H3)|]. split; [exact (in_order_fin Hld (fl_ratio finite_laws_AX) Ho H3 H4)|].
  exact (hot_temps (in_order_temps Ho) H5).
Qed.
Lemma fine_sweeps k y y' : sweeps P draw k y y' -> fine y -> fine y'.
Proof using Hld Hdraw.
  intros H. induction H as [|k y y1 y2 _ IH H]; intros H0; [exact H0|]. specialize (IH H0).
  assert (0 < 1 / 4 < 1) as Htg by lra. pose proof IH as (H1 & _).
  pose proof (in_order_real Htg Hdraw H H1) as K1.
  destruct (@fine_part y1 (y_steps y1) [] (y_steps y2) (y_pars y2) (y_gen y2) IH (eq_sym (app_nil_r _)) H) as (_ & K2 & K3 & K4).
  split; [exact K1|]. split; [exact K2|]. split; [exact K3|exact K4].
Qed.
Lemma fine_reaches y pre i r post pre' ws g x0 : fine y -> ok x0 -> y_steps y = pre ++ SRam i r :: post -> in_order P draw pre (y_pars y) (y_gen y) pre' ws g ->
  (i < length (y_pars y))%nat ->
  reaches P draw n (fun th ly => exists o, o_LogDensity P x0 (map Fin th) = Ok (Fin ly, o)) ws i r.
Proof using Hld Hld' Hdraw Hn.
  intros Hf Hx0 Es Ho Hi. destruct (fine_part Hf Es Ho) as ([H1 H2] & H3 & H4 & H5).
  assert (length ws = length (y_pars y)) as Hlen by (pose proof (f_equal (@List.length _) (in_order_temps Ho)) as Q; rewrite !map_length in Q; exact Q).
  destruct (nth_error ws i) as [w|] eqn:Ew; [|apply nth_error_None in Ew; lia].
  destruct (proj1 (Forall_nth_error _ _) H1 _ _ Ew) as (x & Ex & Hx). destruct (proj1 (Forall_nth_error _ _) H3 _ _ Ew) as [Hok _].
  pose proof (proj1 (Forall_nth_error _ _) H4 _ _ Ew) as Hfin. destruct (H5 _ _ Ew) as (T & ET & HT).
  assert (exists lx, w_logpost w = Fin lx) as (lx & Elx) by (unfold finw in Hfin; destruct (w_logpost w) as [a| | |]; try discriminate Hfin; exists a; reflexivity).
  destruct (H2 i r (or_introl eq_refl)) as (_ & _ & L & HL).
  exists w, x, lx, T. repeat (split; [assumption|]). intros th ly Hth (o & Eo). split; [apply metropolis_pos|].
  destruct (@ram_reach R0 X P draw ok pld Hld Hld' n r w L x lx T th ly Hn HT HL Hok Hx Ex Elx ET Hth (proj1 (Hld Hx0 Eo))) as (u & Hu & Hun & Hst).
  exists u. split; [exact Hu|]. split; [exact Hun|]. intros g0 g1 uu g2 E1 E2. destruct (Hst g0 g1 uu g2 E1 E2) as (r' & w' & E & Hv & Hl).
  exists r', w'. split; [|split; [exact Hv|exact Hl]]. cbn [do_step]. unfold vgetU. rewrite Ew. cbn [bind]. rewrite E. reflexivity.
Qed.
End States.

(** ** Runs *)
Lemma ladder_hot nw (ws : list (param AX (base AX (kpx AX)) (list (F AX)))) : map (@w_temp AX _ _) ws = temp_ladder AX nw -> hot ws.
Proof.
  intros E i w Hw. assert (nth_error (temp_ladder AX nw) i = Some (w_temp w)) as H by (rewrite <- E, nth_error_map, Hw; reflexivity).
  destruct nw as [|[|nw]].
  - exfalso. assert (i < 0)%nat; [|lia]. rewrite <- (temp_ladder_len AX 0). apply nth_error_Some. congruence.
  - rewrite ladder_one in H. destruct i as [|[|]]; try discriminate H. exists 100. split; [injection H as H; symmetry; exact H|lra].
  - rewrite ladder_values in H by lia. rewrite nth_error_map in H. destruct (nth_error (seq 0 (S (S nw))) i) as [j|]; [|discriminate H].
    cbn [option_map] in H. eexists. split; [injection H as H; symmetry; exact H|apply exp_pos].
Qed.

Section Runs.
Variable R0 : rng AX.
Hypothesis HR : valid_rng R0.
Variables vsort dsort : list (F AX) -> option (list (F AX)).
Variable solve : list (list (cx AX)) -> list (cx AX) -> option (list (cx AX)).
Variable si : list (F AX) -> option (list nat).
Variable chol : mat AX -> option (mat AX).
Hypothesis Hvs : valid_vsort vsort.
Hypothesis Hds : valid_dsort dsort.
Hypothesis Hsi : valid_sort_index si.
Hypothesis Hch : valid_chol chol.
Variables t y e : list R.
Hypothesis Hy : length y = length t.
Hypothesis He : length e = length t.
Hypothesis Ht : strictly_increasing t.
Hypothesis Hne : exists a b, In a y /\ In b y /\ a <> b.

Lemma LDp_conv p maf prior st (b : base AX (kpx AX)) v l : okb st b -> pLD (pcls solve p maf prior) (fun om (ma : list (F AX)) => (om, ma)) (@pfp AX solve) st v = Ok l ->
  exists b', LogDensity (pcls solve p maf prior) b v = Ok (l, b').
Proof using.
  intros [Hw <-] E. destruct (@LD_purep AX solve p maf prior b v Hw) as [H1 _]. pose proof (eq_trans H1 E) as H2. clear H1. rename H2 into H1. unfold obs_fst in H1.
  destruct (LogDensity (pcls solve p maf prior) b v) as [[l' b']|ex| |]; cbn in H1; try discriminate H1. exists b'. injection H1 as ->. reflexivity.
Qed.
Lemma w_ld' fuel p q z st x v l : @okb AX _ st x -> pldw solve p q z st v = Ok l -> exists x', o_LogDensity (walker_par R0 dsort solve fuel p q z) x v = Ok (l, x').
Proof using.
  unfold walker_par, pldw, walker_cls. destruct z; [|destruct (q =? 0)%nat]; cbn [o_LogDensity par_zcar par_carp par_carma parp]; intros H E; exact (LDp_conv H E).
Qed.

(** the log-density of the objects of a run is a number at every point of the prior region with a nonzero standard deviation *)
Lemma LDp_region p q z (b : base AX (kpx AX)) (th : list R) om smax fmin fmax : valid_solve solve ->
  base_holds b t y e (mkB AX (Fin smax) (Fin fmax) (Fin fmin) false) -> (2 <= p)%nat -> (z = true \/ (q < p)%nat) -> length th = walker_dim p q z ->
  ARRoots AX p (map Fin th) = Ok (map FinC om) -> in_prior smax fmin fmax th om -> nth 0 th 0 <> 0 ->
  exists ly b', LogDensity (walker_cls solve p q z) b (map Fin th) = Ok (Fin ly, b').
Proof using Ht Hy He.
  intros Hsv Hb Hp Hq HL Hom Hin Hz. rewrite walker_cls_eq.
  assert (3 + p <= length th)%nat as HL3 by (rewrite HL; unfold walker_dim; destruct z; lia).
  pose proof (pr_scale _ _ _ _ _ Hin) as Hs.
  assert (exists ma : list R, walker_ma (A := AX) p q z (map Fin th) = Ok (map Fin ma) /\ length ma = p /\ (exists l, nth l ma 0 <> 0)) as (ma & Ema & Lma & Nma).
  { assert (exists ma : list R, Ok (carp_ma AX p) = Ok (map Fin ma) /\ length ma = p /\ (exists l, nth l ma 0 <> 0)) as H0.
    { exists (upd (repeat 0 p) 0 1). rewrite carp_ma_Fin. split; [reflexivity|]. split; [apply CarpackRefute.carp_ma_len|]. apply carp_ma_nz; lia. }
    unfold walker_ma. destruct z; [exact H0|]. destruct (Nat.eqb_spec q 0) as [->|]; [exact H0|].
    destruct Hq as [|Hq]; [discriminate|]. destruct (ExtractMA_carma_main p q th Hq) as (ma & Em & Lm & Hm0 & _); [rewrite HL; unfold walker_dim; lia|].
    exists ma. split; [exact Em|]. split; [exact Lm|]. exists O; rewrite Hm0; lra. }
  assert (LogPrior AX (map Fin th) = Ok (Fin (log_sichi (nth 1 th 0)))) as Hpr by (apply LogPrior_main; [lia|lra]).
  destruct (LDp_all solve p (walker_ma (A := AX) p q z) (LogPrior AX) b t y e th ma om smax fmin fmax false (log_sichi (nth 1 th 0)) Hsv Hb Ht Hp HL3 Ema Lma Nma) as (x & b2 & E2 & Hx);
    try assumption; try (intros; discriminate); try lra; try (intros; assumption).
  eexists. eexists. exact E2.
Qed.

Theorem carma_reaches fuel N burnin p q nw z thin (init : list R) raw v0 l0 a0 (g : gen R0) w g' :
  (Nat.even p = true \/ (3 <= length t)%nat) -> moves R0 (walker_dim p q z) ->
  RunCarmaSampler (R := R0) dsort solve si chol fuel N burnin (map Fin t) (map Fin y) (map Fin e) p q nw z thin (map Fin init) raw v0 l0 a0 g = Ok (w, g') ->
  exists b r ex label y0, begun (walker_par R0 dsort solve fuel p q z) (map Fin init) (walkers b v0 l0 label nw) (hot_steps (nw - 1) r ex ++ [SRam 0 r]) g y0 /\
    recorded (walker_par R0 dsort solve fuel p q z) y0 burnin N thin w g' /\
    (forall smax fmin fmax th om, valid_solve solve -> (z = true \/ (q < p)%nat) -> run_bounds t y smax fmin fmax -> length th = walker_dim p q z ->
      ARRoots AX p (map Fin th) = Ok (map FinC om) -> in_prior smax fmin fmax th om -> nth 0 th 0 <> 0 ->
      exists ly o, o_LogDensity (walker_par R0 dsort solve fuel p q z) b (map Fin th) = Ok (Fin ly, o)) /\
    forall k yk, sweeps (walker_par R0 dsort solve fuel p q z) (@student_draw AX R0) k y0 yk ->
    forall pre i rk post pre' ws gk, y_steps yk = pre ++ SRam i rk :: post ->
      in_order (walker_par R0 dsort solve fuel p q z) (@student_draw AX R0) pre (y_pars yk) (y_gen yk) pre' ws gk ->
      reaches (walker_par R0 dsort solve fuel p q z) (@student_draw AX R0) (walker_dim p q z)
        (fun th ly => exists o, o_LogDensity (walker_par R0 dsort solve fuel p q z) b (map Fin th) = Ok (Fin ly, o)) ws i rk.
Proof using HR Hds Hsi Hch Hy He Ht Hne.
  intros Hodd Hmv E. assert (all_kept si (map Fin t)) as Hk by (apply kept_distinct; [exact Hsi|apply increasing_NoDup, Ht]).
  assert (length (map Fin y) = length (map Fin t) /\ length (map Fin e) = length (map Fin t)) as [Hy' He'] by (rewrite !map_length; split; assumption).
  destruct (RunCarma_inv E) as (b & b1 & r & ex & s & label & Hp & Hnw & Eb & Eb1 & Er & Erun & Hw & Egs).
  destruct (walker_prior Hsi Hy He Ht Hne raw z Hp) as (b' & b1' & smax & fmin & fmax & Eb' & Eb1' & Hb1 & HB).
  assert (b1' = b1) as ->.
  { pose proof (eq_trans (eq_sym Eb) Eb') as Q. injection Q as <-. pose proof (eq_trans (eq_sym Eb1) Eb1') as Q. injection Q as <-. reflexivity. }
  assert (wfb b1) as Hwf by (exact (proj1 Hb1)).
  assert (3 <= walker_dim p q z)%nat as Hdim by (unfold walker_dim; destruct z; lia).
  pose proof (ram_new_real Hch Hne Hdim Er) as Hgr.
  destruct (Run_recorded Erun Hw) as (y0 & Hbeg & Hrec).
  set (P := walker_par R0 dsort solve fuel p q z) in *. set (st := static_of b1) in *.
  pose proof Hbeg as (Ess & use & ws1 & Hst & Ho & Htm & _).
  assert (List.Forall (fun w => @okb AX _ st (w_obj w)) (walkers b1 v0 l0 label nw)) as Hok by (apply walkers_all; intros T tr; split; [exact Hwf|reflexivity]).
  assert (List.Forall (fun w : param AX (base AX (kpx AX)) (list xr) => okb st (w_obj w)) ws1) as Hok1 by exact (map_obj_ok (ok := @okb AX _ st) Ho Hok).
  assert (length (y_pars y0) = nw) as Hly by (destruct (started_len Hst) as [-> _]; rewrite (map_len Ho); apply walkers_len).
  assert (covered (hot_steps (nw - 1) r ex ++ [SRam 0 r]) nw) as Hcov by apply steps_cover.
  assert (forall x g w g', okb st x -> just_started P use (map Fin init) x g w g' -> okb st (w_obj w) /\ (realw (walker_dim p q z) w /\ finw w)) as HQ.
  { intros x g0 w0 g0' Hx (x1 & Hs1 & EL).
    assert (okb st x1 /\ exists l, pldw solve p q z st (w_value w0) = Ok l /\ ffin AX l = true) as (Hx1 & l & K1 & K2)
      by (destruct use; [exact (w_set Hx Hs1)|exact (w_start Hx Hs1)]).
    destruct (w_ld Hx1 EL) as [Hl Hx']. split; [exact Hx'|]. split; [|unfold finw; assert (w_logpost w0 = l) as -> by congruence; exact K2].
    destruct use; [exact (walker_set_real HR Hds Hy He Ht Hne HB Hodd Hb1 Hx Hs1)|exact (walker_start_real HR Hds Hy He Ht Hne HB Hodd Hb1 Hx Hs1)]. }
  destruct (started_each (fun _ => None) (fun _ => None) (fun _ => None) HQ Hst Hok1) as (_ & Hall & _).
  assert (forall j wj, nth_error (y_pars y0) j = Some wj -> realw (walker_dim p q z) wj /\ finw wj) as Hall1.
  { intros j wj Hj. apply (Hall _ _ Hj). apply Hcov. rewrite <- Hly. apply nth_error_Some. intros Q. pose proof (eq_trans (eq_sym Hj) Q). discriminate. }
  assert (forall k yk, sweeps P (@student_draw AX R0) k y0 yk -> map (@w_temp _ _ _) (y_pars yk) = temp_ladder AX nw) as Htemps.
  { intros k yk Hs. rewrite (sweeps_temps Hs), (started_temps Hst), Htm. apply walkers_temps. }
  assert (fine (okb st) (pldw solve p q z st) (walker_dim p q z) y0) as Hfine.
  { split; [split; [apply Forall_nth_error; intros j wj Hj; exact (proj1 (Hall1 j wj Hj))|rewrite Ess; intros i r' Hin'; rewrite (steps_adapt Hin'); exact Hgr]|].
    split; [|split; [apply Forall_nth_error; intros j wj Hj; exact (proj2 (Hall1 j wj Hj))|]].
    - refine (@started_all _ _ _ P (@okb AX _ st) (pldw solve p q z st) (@w_ld AX R0 dsort solve fuel p q z st)
        (fun x g v x' g' H E => proj1 (w_start H E)) (fun x i g v x' g' H E => proj1 (w_set H E)) _ _ _ _ _ _ _ Hst Hok1 _).
      rewrite (map_len Ho), walkers_len. exact Hcov.
    - apply (@ladder_hot nw). exact (Htemps 0%nat y0 (sw_0 _ _ _)). }
  exists b1, r, ex, label, y0. split; [exact Hbeg|]. split; [rewrite Egs; exact Hrec|]. split.
  { intros sm fm fM th om Hsv Hq HB' HL Hom Hpi Hz. destruct (run_bounds_unique HB HB') as (-> & -> & ->).
    destruct (LDp_region Hsv Hb1 Hp Hq HL Hom Hpi Hz) as (ly & o & El). exists ly, o. unfold P, walker_par. unfold walker_cls in El.
    destruct z; [exact El|]. destruct (q =? 0)%nat; exact El. }
  intros k yk Hs pre i rk post pre' ws gk Esp Hin.
  assert (0 < walker_dim p q z)%nat as Hdim0 by lia.
  pose proof (fine_sweeps (@w_ld AX R0 dsort solve fuel p q z st) Hmv Hs Hfine) as Hfk.
  refine (fine_reaches (@w_ld AX R0 dsort solve fuel p q z st) (@w_ld' fuel p q z st) Hdim0 Hmv Hfk (Logic.conj Hwf eq_refl) Esp Hin _).
  assert (length (y_pars yk) = nw) as -> by (pose proof (f_equal (@List.length _) (Htemps k yk Hs)) as Q; rewrite map_length, temp_ladder_len in Q; exact Q).
  pose proof (sweeps_srel Hs) as F1. rewrite Esp, Ess in F1. apply Forall2_app_inv_r in F1. destruct F1 as (a1 & a2 & _ & F2 & Ea).
  clear Hly. destruct a2 as [|s2 a2]; [inversion F2|]. inversion F2 as [|? ? ? ? Hsr]; subst. destruct s2 as [i2 r2|]; cbn in Hsr; [|contradiction]. destruct Hsr as (-> & _).
  assert (In (SRam i2 r2) (hot_steps (nw - 1) r ex ++ [SRam 0 r])) as Hi2 by (rewrite Ea; apply in_or_app; right; left; reflexivity).
  clear - Hi2 Hnw. apply in_app_or in Hi2. destruct Hi2 as [H|[H|[]]]; [|injection H as <- _; lia].
  assert (forall m, In (SRam i2 r2) (hot_steps m r ex) -> (i2 <= m)%nat) as K.
  { clear. intros m. induction m as [|m IH]; cbn [hot_steps]; [intros []|]. intros [H|[H|H]]; [injection H as <- _; lia|discriminate H|]. specialize (IH H). lia. }
  specialize (K _ H). lia.
Qed.

Lemma LD1_conv st (b : base AX (F AX)) v l : okb st b -> pld1 st v = Ok l -> exists b', o_LogDensity (par1 R0 vsort) b v = Ok (l, b').
Proof using.
  intros [Hw <-] E. destruct (@LD_pure1 AX b v Hw) as [H1 _]. pose proof (eq_trans H1 E) as H2. clear H1. cbn [o_LogDensity par1]. unfold obs_fst in H2.
  destruct (LogDensity (car1_cls AX) b v) as [[l' b']|ex| |]; cbn in H2; try discriminate H2. exists b'. injection H2 as ->. reflexivity.
Qed.
Theorem car1_reaches N burnin thin (init : list R) raw v0 l0 a0 (g : gen R0) w g' : moves R0 4 ->
  RunCar1Sampler (R := R0) vsort si chol N burnin (map Fin t) (map Fin y) (map Fin e) thin (map Fin init) raw v0 l0 a0 g = Ok (w, g') ->
  exists b r y0 w0, begun (par1 R0 vsort) (map Fin init) [new_param b v0 l0 (fofZ AX 1) true "CAR(1)"] [SRam 0 r] g y0 /\ y_pars y0 = [w0] /\
    recorded (par1 R0 vsort) y0 burnin N thin w g' /\
    (forall smax fmin fmax th, run_bounds t y smax fmin fmax -> length th = 4%nat -> in_prior1 smax fmin fmax th -> nth 0 th 0 <> 0 ->
      exists ly o, o_LogDensity (par1 R0 vsort) b (map Fin th) = Ok (Fin ly, o)) /\
    (ffin AX (w_logpost w0) = true -> forall k yk, sweeps (par1 R0 vsort) (@student_draw AX R0) k y0 yk -> exists rk, y_steps yk = [SRam 0 rk] /\
      reaches (par1 R0 vsort) (@student_draw AX R0) 4 (fun th ly => exists o, o_LogDensity (par1 R0 vsort) b (map Fin th) = Ok (Fin ly, o)) (y_pars yk) 0 rk).
Proof using HR Hvs Hsi Hch Hy He Ht Hne.
  intros Hmv E.
  destruct (RunCar1_inv E) as (b & b1 & r & s & Eb & Eb1 & Er & Erun & Hw & Egs).
  destruct (car1_built Hsi Hy He Ht Hne raw) as (b' & fm0 & fM0 & Eb' & Hb' & _).
  pose proof (eq_trans (eq_sym Eb) Eb') as Q. injection Q as <-.
  destruct (set_prior_built Hy He Ht Hne Hb' eq_refl) as (b1' & smax & fmin & fmax & Eb1' & Hb1 & HB). pose proof (eq_trans (eq_sym Eb1) Eb1') as Q. injection Q as <-.
  assert (wfb b1) as Hwf by (exact (proj1 Hb1)). set (st := static_of b1) in *. pose proof HB as (_ & Hf & Hgap & _).
  assert (forall x (g0 : gen R0) v x' g0', okb st x -> Start1 vsort x g0 = Ok (v, x', g0') -> realv 4 v) as Hstart.
  { intros x g0 v x' g0' Hx Es. pose proof (base_holds_static Hb1 Hx) as Hbx.
    destruct (@start1_prior R0 HR vsort Hvs t y e x smax fmin fmax Hbx Hf Hgap g0) as (sd & sc & mu & lo & med & u & bb & gg & Es' & _).
    pose proof (eq_trans (eq_sym Es) Es') as Q. injection Q as -> _ _. exists [sd; sc; mu; lo]. split; reflexivity. }
  assert (good_ram 4 (1 / 4) r) as Hgr by (apply (ram_new_real Hch Hne (n := 4) (burnin := burnin) (a0 := a0)); [lia|exact Er]).
  destruct (Run_recorded Erun Hw) as (y0 & Hbeg & Hrec). pose proof Hbeg as (Ess & use & ws1 & Hst & Ho & Htm & _).
  assert (List.Forall (fun w => @okb AX _ st (w_obj w)) [new_param b1 v0 l0 (fofZ AX 1) true "CAR(1)"]) as Hok by (constructor; [split; [exact Hwf|reflexivity]|constructor]).
  assert (List.Forall (fun w : param AX (base AX xr) (list xr) => okb st (w_obj w)) ws1) as Hok1 by exact (map_obj_ok (ok := @okb AX _ st) Ho Hok).
  assert (length (y_pars y0) = 1%nat) as Hl0 by (destruct (started_len Hst) as [-> _]; apply map_len in Ho; exact Ho).
  destruct (y_pars y0) as [|w0 [|? ?]] eqn:Ey0; try discriminate.
  exists b1, r, y0, w0. split; [exact Hbeg|]. split; [exact Ey0|]. split; [rewrite Egs; exact Hrec|]. split.
  { intros sm fm fM th HB' HL Hpi Hz. destruct (run_bounds_unique HB HB') as (-> & -> & ->). assert (4 <= length th)%nat as HL' by lia.
    destruct (LD1_inside b1 t y e th smax fmin fmax false Hb1 Ht HL' Hpi Hz) as (m & v & b2 & EL & _). eexists. exists b2. exact EL. }
  pose proof (fun x v l x' H E => @LD1_ok AX st x v l x' H E) as Hld.
  assert (forall x g w g', okb st x -> just_started (par1 R0 vsort) use (map Fin init) x g w g' -> okb st (w_obj w) /\ realw 4 w) as HQ.
  { intros x g0 w1 g0' Hx (x1 & Hs1 & EL). cbn [o_Start o_SetStart o_LogDensity par1] in Hs1, EL. split.
    - assert (okb st x1) as Hx1 by (destruct use; [exact (SetStart1_ok Hx Hs1)|exact (Start1_ok Hx Hs1)]). exact (proj2 (LD1_ok Hx1 EL)).
    - destruct use; [|exact (Hstart _ _ _ _ _ Hx Hs1)]. unfold SetStart1 in Hs1. change (F AX) with xr in Hs1.
      destruct (Nat.eqb_spec (List.length (map Fin init)) 4) as [Hl|]; cbn [negb] in Hs1; [|exact (Hstart _ _ _ _ _ Hx Hs1)].
      apply bind_Ok in Hs1. destruct Hs1 as ([lp b3] & EL3 & Hs1). destruct (LD1_ok Hx EL3) as [_ Hx3].
      destruct (negb _); [exact (Hstart _ _ _ _ _ Hx3 Hs1)|].
      apply bind_Ok in Hs1. destruct Hs1 as (c0 & _ & Hs1). apply bind_Ok in Hs1. destruct Hs1 as (c1 & _ & Hs1). apply bind_Ok in Hs1. destruct Hs1 as (c2 & _ & Hs1).
      apply bind_Ok in Hs1. destruct Hs1 as (c3 & _ & Hs1). cbv zeta in Hs1. apply bind_Ok in Hs1. destruct Hs1 as (b4 & _ & Hs1).
      apply (f_equal (fun q => match q with Ok q => fst (fst q) | _ => [] end)) in Hs1. cbn [fst] in Hs1. exists init. split; [symmetry; exact Hs1|]. rewrite map_length in Hl. exact Hl. }
  destruct (started_each (fun _ => None) (fun _ => None) (fun _ => None) HQ Hst Hok1) as (_ & Hall0 & _).
  intros Hfin k yk Hs.
  assert (fine (okb st) (pld1 st) 4 y0) as Hfine.
  { split; [split; [|rewrite Ess; intros i r' [Q|[]]; injection Q as _ <-; exact Hgr]|].
    - rewrite Ey0. constructor; [|constructor]. apply (Hall0 0%nat w0 eq_refl). left. reflexivity.
    - split; [|split].
      + rewrite Ey0. refine (@started_all _ _ _ (par1 R0 vsort) (@okb AX _ st) (pld1 st) Hld
          (fun x g v x' g' H E => Start1_ok H E) (fun x i g v x' g' H E => SetStart1_ok H E) _ _ _ _ _ _ _ Hst Hok1 _).
        intros j Hj. rewrite (map_len Ho) in Hj. left. cbn in *. lia.
      + rewrite Ey0. constructor; [exact Hfin|constructor].
      + assert (map (@w_temp _ _ _) (y_pars y0) = [Fin 1]) as Et.
        { rewrite Ey0. rewrite (started_temps Hst), Htm. reflexivity. }
        intros i wi Hi. assert (nth_error [Fin 1] i = Some (w_temp wi)) as Q by (rewrite <- Et, nth_error_map, Hi; reflexivity).
        destruct i as [|[|]]; try discriminate Q. exists 1. split; [injection Q as Q; symmetry; exact Q|lra]. }
  pose proof (fine_sweeps (P := par1 R0 vsort) (pld := pld1 st) Hld Hmv Hs Hfine) as Hfk.
  pose proof (sweeps_srel Hs) as F1. rewrite Ess in F1.
  assert (exists s', y_steps yk = [s'] /\ srel k (SRam 0 r) s') as (s' & Ey & Hs').
  { clear - F1. destruct (y_steps yk) as [|s' [|]]; inversion F1 as [|? ? ? ? Hs Hl]; inversion Hl. exists s'. split; [reflexivity|exact Hs]. }
  destruct s' as [i' rk|]; cbn in Hs'; [|contradiction]. destruct Hs' as (-> & _). exists rk. split; [exact Ey|].
  assert (0 < 4)%nat as H4 by lia.
  refine (fine_reaches (P := par1 R0 vsort) (pld := pld1 st) Hld (@LD1_conv st) H4 Hmv Hfk (Logic.conj Hwf eq_refl) (pre := []) (post := []) Ey (io_nil _ _ _ _) _).
  rewrite (sweeps_len Hs), Ey0. cbn. lia.
Qed.
End Runs.
