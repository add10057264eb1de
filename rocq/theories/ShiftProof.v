(** Two runs of the engine on objects whose log-densities agree up to a shift of the third parameter (the mean). *)
From Coq Require Import Reals List Arith ZArith Bool String Lia Lra.
From Verif Require Import Arith Res ListLemmas KFModel KF1Proof Spec Gauss Emb History InitProof OUpd SimProof KF1R KF1X KF1Main KF1More.
From Verif Require Import Cx KFpModel KFpProof KFpX KFpMain KFpTop SpecModel CarpackModel RootsProof PriorProof LogLikProof LogLikMain CarpackTop CarpackRefute.
From Verif Require Import EngineModel StartModel EngineSpec EngineProof EngineInv CholProof RamProof EngineHist EngineClass EngineDriver EngineTop StartProof TotalProof TotalClass TotalTop EngineAX Start1Proof EngineReal Sym.
Import ListNotations.
Local Open Scope R_scope.

Set Implicit Arguments.
Unset Strict Implicit.
Local Notation length := List.length.

(** add c to the third coordinate *)
Definition tau (c : R) (v : list xr) : list xr := match v with a :: b :: m :: r => a :: b :: xadd m (Fin c) :: r | _ => v end.
Lemma tau_len c v : length (tau c v) = length v.
Proof. destruct v as [|? [|? [|? ?]]]; reflexivity. Qed.
Lemma tau_Fin c th : (3 <= length th)%nat -> tau c (map Fin th) = map Fin (reparam 1 c th).
Proof. intros H. destruct th as [|a [|b [|m r]]]; cbn in H; try lia. cbn. rewrite !Rmult_1_l. reflexivity. Qed.
Lemma tau_real c n v : realv n v -> realv n (tau c v).
Proof.
  intros (th & -> & Hl). destruct th as [|a [|b [|m r]]].
  - exists []. split; [reflexivity|exact Hl].
  - exists [a]. split; [reflexivity|exact Hl].
  - exists [a; b]. split; [reflexivity|exact Hl].
  - exists (a :: b :: m + c :: r). split; [reflexivity|exact Hl].
Qed.
Lemma xadd_swap (m s : xr) c : xadd (xadd m (Fin c)) s = xadd (xadd m s) (Fin c).
Proof. destruct m, s; cbn; try reflexivity. f_equal. ring. Qed.
Lemma vadd_tau c (v s w : list xr) : vadd AX v s = Ok w -> vadd AX (tau c v) s = Ok (tau c w).
Proof.
  unfold vadd. change (F AX) with xr. rewrite tau_len. destruct (Nat.eqb_spec (length v) (length s)) as [El|]; [|discriminate]. intros E. injection E as <-. f_equal.
  destruct v as [|a [|b [|m r]]], s as [|a' [|b' [|m' r']]]; cbn in El; try discriminate; try reflexivity.
  cbn [tau combine map fst snd]. change (fadd AX) with xadd. rewrite xadd_swap. reflexivity.
Qed.

Section Sim.
Variable R0 : rng AX.
Variable X : Type.
Variable P : methodsP R0 X (list (F AX)).
Variable draw : F AX -> gen R0 -> F AX * gen R0.
Variable n : nat.
Variable tg : R.
Hypothesis Htg : 0 < tg < 1.
Hypothesis Hdraw : forall g, exists u g1, draws n (draw (Fin 0)) g = (map Fin u, g1) /\ nonzero u.
(** how a parameter vector of the first run becomes one of the second *)
Variable ta : list xr -> list xr.
Hypothesis Htl : forall v, length (ta v) = length v.
Hypothesis Hta : forall v s w : list xr, vadd AX v s = Ok w -> vadd AX (ta v) s = Ok (ta w).
(** the objects of the two runs *)
Variable RX : X -> X -> Prop.
Hypothesis HLD : forall x x' v l x1, RX x x' -> realv n v -> o_LogDensity P x v = Ok (l, x1) ->
  exists x1', o_LogDensity P x' (ta v) = Ok (l, x1') /\ RX x1 x1'.
Hypothesis HSave : forall x x' v, RX x x' -> realv n v -> exists l, o_Save P x' (ta v) = Ok l.
(** drawn starting values need to correspond only when they are used *)
Variable ns : Prop.
Hypothesis HStart : forall x x' g v x1 g1, ns -> RX x x' -> o_Start P x g = Ok (v, x1, g1) ->
  realv n v /\ exists x1', o_Start P x' g = Ok (ta v, x1', g1) /\ RX x1 x1'.
Variables init init' : list (F AX).
Hypothesis Hinit : length init' = length init.
Hypothesis HSet : forall x x' g v x1 g1, RX x x' -> o_SetStart P x init g = Ok (v, x1, g1) ->
  realv n v /\ exists x1', o_SetStart P x' init' g = Ok (ta v, x1', g1) /\ RX x1 x1'.

Local Notation param := (param AX X (list xr)).
Local Notation sys := (sys R0 X).
(** before the starting value is set *)
Definition prew (w w' : param) : Prop :=
  RX (w_obj w) (w_obj w') /\ w_temp w' = w_temp w /\ w_track w' = w_track w /\ w_label w' = w_label w /\
  w_samples w' = map (ta) (w_samples w) /\ w_logposts w' = w_logposts w /\ length (w_value w') = length (w_value w).
Definition relw (w w' : param) : Prop := prew w w' /\ w_value w' = ta (w_value w) /\ w_logpost w' = w_logpost w.

Lemma F2_nth T U (Q : T -> U -> Prop) l l' j x : Forall2 Q l l' -> nth_error l j = Some x -> exists x', nth_error l' j = Some x' /\ Q x x'.
Proof.
  intros H. revert j. induction H as [|a b l l' Hab H IH]; intros [|j] E; cbn in *; try discriminate.
  - injection E as <-. exists b. split; [reflexivity|exact Hab].
  - exact (IH j E).
Qed.
Lemma F2_upd T U (Q : T -> U -> Prop) l l' j x x' : Forall2 Q l l' -> Q x x' -> Forall2 Q (upd l j x) (upd l' j x').
Proof.
  intros H Hx. revert j. induction H as [|a b l l' Hab H IH]; intros [|j]; cbn; constructor; try assumption. apply IH.
Qed.
Lemma F2_vget T U (Q : T -> U -> Prop) l l' j x : Forall2 Q l l' -> vgetU l j = Ok x -> exists x', vgetU l' j = Ok x' /\ Q x x'.
Proof. intros H E. destruct (F2_nth H (vgetU_nth _ _ E)) as (x' & E' & Hx). exists x'. split; [apply vgetU_nth', E'|exact Hx]. Qed.

(** ** One step *)
Lemma Save_sim w w' v w1 : RX (w_obj w) (w_obj w') -> prew w w' -> realv n v -> Save P w v = Ok w1 ->
  exists w1', Save P w' (ta v) = Ok w1' /\ relw w1 w1'.
Proof using Htl Hta HLD.
  intros Hx (_ & H2 & H3 & H4 & H5 & H6 & _) Hv E. unfold Save in *. apply bind_Ok in E. destruct E as ([l x1] & E & Q). injection Q as <-.
  destruct (HLD Hx Hv E) as (x1' & E' & Hx1). change (list (F AX)) with (list xr) in *. rewrite E'. cbn [bind]. eexists. split; [reflexivity|].
  split; [|split; reflexivity]. split; [exact Hx1|]. cbn. rewrite Htl. repeat split; assumption.
Qed.
Lemma relw_obj w w' x x' : relw w w' -> RX x x' -> relw (set_obj w x) (set_obj w' x').
Proof. intros ((_ & H) & Hv) Hx. split; [split; [exact Hx|exact H]|exact Hv]. Qed.

Lemma do_step_shift s ws ws' g s1 ws1 g1 : Forall2 relw ws ws' -> List.Forall (@realw X n) ws ->
  (forall i r, s = SRam i r -> good_ram n tg r) -> do_step P draw s ws g = Ok (s1, ws1, g1) ->
  exists ws1', do_step P draw s ws' g = Ok (s1, ws1', g1) /\ Forall2 relw ws1 ws1'.
Proof using Htl Hta HLD HSave Htg Hdraw.
  intros Hr Hreal Hram E. pose proof (proj1 (Forall_nth_error _ _) Hreal) as Hn.
  destruct s as [i r|[|j] ex]; cbn [do_step] in *; change (F AX) with xr in *; [|discriminate|].
  - apply bind_Ok in E. destruct E as (w & Ew & E). destruct (F2_vget Hr Ew) as (w' & Ew' & Hw). rewrite Ew'. cbn [bind].
    pose proof (Hn _ _ (vgetU_nth _ _ Ew)) as Hwr. apply bind_Ok in E. destruct E as ([[r1 w1] g2] & E1 & E). injection E as <- <- <-.
    specialize (Hram i r eq_refl). destruct Hram as (_ & _ & L & HLc & HS & _).
    pose proof Hw as (Hp & Hv & Hl). unfold ram_step in *. change (F AX) with xr in *. rewrite Hv, Htl. pose proof (proj2 (realv_inv Hwr)) as Hlw.
    change (F AX) with xr in *. rewrite Hlw in *. change (fofZ AX 0) with (Fin 0) in *.
    destruct (Hdraw g) as (u & g3 & Eu & _). rewrite Eu in *.
    assert (length u = n) as Hu by (pose proof (draws_len n (draw (Fin 0)) g) as Q; rewrite Eu in Q; cbn [fst] in Q; refine (eq_trans (eq_sym _) Q); apply map_length).
    apply bind_Ok in E1. destruct E1 as (sc & Esc & E1). change (F AX) with xr in *. rewrite Esc. cbn [bind].
    assert (sc = map Fin (vbuild n (tmul n (rent L) (rv u)))) as Hsc.
    { pose proof (eq_trans (eq_sym Esc) (eq_trans (f_equal (fun M => mtmul (A := AX) M (map Fin u)) HLc) (mtmul_Fin n L u HS Hu))) as K. injection K as K. exact K. }
    apply bind_Ok in E1. destruct E1 as (new & Enew & E1).
    assert (realv n new) as Hnew.
    { destruct Hwr as (x & Ex & Hx). rewrite Hsc in Enew. pose proof (eq_trans (eq_sym Enew) (f_equal (fun v => vadd AX v (map Fin (vbuild n (tmul n (rent L) (rv u))))) Ex)) as K.
      rewrite vadd_Fin in K by (rewrite vbuild_len; exact Hx). injection K as ->. eexists. split; [reflexivity|]. unfold radd. rewrite map_length, combine_length, vbuild_len, Hx. apply Nat.min_id. }
    pose proof (Hta Enew) as Enew'. change (F AX) with xr in *. rewrite Enew'. cbn [bind].
    apply bind_Ok in E1. destruct E1 as ([[[a r2] w2] g4] & Ea & E1).
    assert (exists w2', ram_accept P r w' (ta new) g3 = Ok (a, r2, w2', g4) /\ relw w2 w2') as (w2' & Ea' & Hw2).
    { unfold ram_accept, LD in *. change (F AX) with xr in *. apply bind_Ok in Ea. destruct Ea as ([l w3] & E3 & Ea). apply bind_Ok in E3. destruct E3 as ([l' x3] & E3 & Q). injection Q as <- <-.
      destruct (HLD (proj1 Hp) Hnew E3) as (x3' & E3' & Hx3). change (F AX) with xr in *. rewrite E3'. cbn [bind].
      pose proof (relw_obj Hw Hx3) as Hw3. pose proof Hw3 as ((_ & Ht & _) & _ & Hlp).
      rewrite Ht, Hlp. destruct (negb _); [injection Ea as <- <- <- <-; eexists; split; [reflexivity|exact Hw3]|].
      destruct (runiform _ _ _) as [uu gu]. destruct (flt AX _ _); injection Ea as <- <- <- <-; eexists; (split; [reflexivity|exact Hw3]). }
    change (F AX) with xr in *. rewrite Ea'. cbn [bind]. apply bind_Ok in E1. destruct E1 as (w3 & Ew3 & E1). apply bind_Ok in E1. destruct E1 as (r3 & Er3 & E1).
    injection E1 as <- <- <-.
    assert (exists w3', (if a then Save P w2' (ta new) else Ok w2') = Ok w3' /\ relw w3 w3') as (w3' & Ew3' & Hw3).
    { destruct a; [|injection Ew3 as <-; exists w2'; split; [reflexivity|exact Hw2]]. exact (Save_sim (proj1 (proj1 Hw2)) (proj1 Hw2) Hnew Ew3). }
    change (F AX) with xr in *. rewrite Ew3'. cbn [bind]. rewrite Er3. cbn [bind]. eexists. split; [reflexivity|]. apply F2_upd; assumption.
  - apply bind_Ok in E. destruct E as (w & Ew & E). apply bind_Ok in E. destruct E as (o & Eo & E).
    destruct (F2_vget Hr Ew) as (w' & Ew' & Hw). destruct (F2_vget Hr Eo) as (o' & Eo' & Ho). rewrite Ew'. cbn [bind]. rewrite Eo'. cbn [bind].
    apply bind_Ok in E. destruct E as ([[[e1 w1] o1] g2] & E1 & E). injection E as <- <- <-. pose proof (Hn _ _ (vgetU_nth _ _ Ew)) as Hwr. pose proof (Hn _ _ (vgetU_nth _ _ Eo)) as Hor.
    pose proof Hw as ((Hwx & Hwt & _) & Hwv & Hwl). pose proof Ho as ((Hox & Hot & Hotr & Hola & Hos & Holp & _) & Hov & Hol).
    unfold exch_step in *. cbv zeta in *. change (F AX) with xr in *. rewrite Hwl, Hol, Hwt, Hot, Hwv, Hov. destruct (runiform _ _ g) as [uu gu].
    apply bind_Ok in E1. destruct E1 as ([[w2 o2] na] & E2 & E1). injection E1 as <- <- <- <-.
    destruct (flt AX uu _).
    + apply bind_Ok in E2. destruct E2 as (w3 & Ew3 & E2). apply bind_Ok in E2. destruct E2 as (o3 & Eo3 & E2). injection E2 as <- <- <-.
      destruct (Save_sim Hwx (proj1 Hw) Hor Ew3) as (w3' & Ew3' & Hw3). change (F AX) with xr in *. rewrite Ew3'. cbn [bind].
      unfold SaveDerived in *. destruct (HSave Hox Hwr) as (l & El). change (F AX) with xr in *. rewrite El. cbn [bind].
      apply bind_Ok in Eo3. destruct Eo3 as (l1 & _ & Q). injection Q as <-.
      eexists. split; [reflexivity|]. apply F2_upd; [apply F2_upd; [exact Hr|]|].
      * destruct Hw3 as (Hp3 & Hv3 & _). split; [exact Hp3|]. split; [exact Hv3|reflexivity].
      * split; [|split; reflexivity]. split; [exact Hox|]. cbn. rewrite Htl. repeat split; assumption.
    + injection E2 as <- <- <-. cbn [bind]. eexists. split; [reflexivity|]. apply F2_upd; [apply F2_upd|]; assumption.
Qed.
Lemma sweep_steps_shift ss : forall ws ws' g ss1 ws1 g1, Forall2 relw ws ws' -> real_state n tg ws ss ->
  sweep_steps P draw ss ws g = Ok (ss1, ws1, g1) ->
  exists ws1', sweep_steps P draw ss ws' g = Ok (ss1, ws1', g1) /\ Forall2 relw ws1 ws1' /\ real_state n tg ws1 ss1.
Proof using Htl Hta HLD HSave Htg Hdraw.
  induction ss as [|s ss IH]; intros ws ws' g ss1 ws1 g1 Hr [H1 H2] E; cbn [sweep_steps] in *.
  - injection E as <- <- <-. exists ws'. split; [reflexivity|]. split; [exact Hr|]. split; [exact H1|intros i r []].
  - apply bind_Ok in E. destruct E as ([[s2 ws2] g2] & E1 & E). apply bind_Ok in E. destruct E as ([[s3 ws3] g3] & E2 & E). injection E as <- <- <-.
    assert (forall i r, s = SRam i r -> good_ram n tg r) as Hg by (intros i r ->; apply (H2 i); left; reflexivity).
    destruct (do_step_shift Hr H1 Hg E1) as (wa & Ea & Ha). destruct (do_step_real Htg Hdraw H1 Hg E1) as (Hb & Hc).
    destruct (IH ws2 wa g2 s3 ws3 g3 Ha) as (wb & Eb & Hd & [He Hf]); [split; [exact Hb|intros i r Hin; apply (H2 i); right; exact Hin]|exact E2|].
    change (F AX) with xr in *. rewrite Ea. cbn [bind]. rewrite Eb. cbn [bind]. exists wb. split; [reflexivity|]. split; [exact Hd|]. split; [exact He|].
    intros i r [Q|Hin]; [exact (Hc i r Q)|exact (Hf i r Hin)].
Qed.
Definition rely (y y' : sys) : Prop :=
  Forall2 relw (y_pars y) (y_pars y') /\ y_steps y' = y_steps y /\ y_gen y' = y_gen y /\ real_state n tg (y_pars y) (y_steps y).
Lemma sweep_shift y y' y1 : rely y y' -> sweep P draw y = Ok y1 -> exists y1', sweep P draw y' = Ok y1' /\ rely y1 y1'.
Proof using Htl Hta HLD HSave Htg Hdraw.
  intros (H1 & H2 & H3 & H4) E. unfold sweep in *. apply bind_Ok in E. destruct E as ([[ss ws] g] & E & Q). injection Q as <-.
  destruct (sweep_steps_shift H1 H4 E) as (ws' & E' & K1 & K2). rewrite H2, H3. change (F AX) with xr in *. rewrite E'. cbn [bind].
  eexists. split; [reflexivity|]. split; [exact K1|]. split; [reflexivity|]. split; [reflexivity|exact K2].
Qed.
Lemma Iterate_shift k : forall y y' y1, rely y y' -> Iterate P draw k y = Ok y1 -> exists y1', Iterate P draw k y' = Ok y1' /\ rely y1 y1'.
Proof using Htl Hta HLD HSave Htg Hdraw.
  induction k as [|k IH]; intros y y' y1 H E; cbn [Iterate] in *; [injection E as <-; exists y'; split; [reflexivity|exact H]|].
  apply bind_Ok in E. destruct E as (y2 & E2 & E). destruct (sweep_shift H E2) as (y2' & E2' & H2). rewrite E2'. cbn [bind]. exact (IH _ _ _ H2 E).
Qed.

(** ** Tracked parameters *)
Lemma map_upd T U (f : T -> U) l i x : map f (upd l i x) = upd (map f l) i (f x).
Proof. revert i; induction l as [|a l IH]; intros [|i]; cbn; try reflexivity. f_equal. apply IH. Qed.
Lemma AddToSample_sim w w' cur w1 : relw w w' -> AddToSample w cur = Ok w1 -> exists w1', AddToSample w' cur = Ok w1' /\ relw w1 w1'.
Proof.
  intros ((H1 & H2 & H3 & H4 & H5 & H6 & H7) & H8 & H9) E. unfold AddToSample in *.
  apply bind_Ok in E. destruct E as (s1 & Es & E). apply bind_Ok in E. destruct E as (l1 & El & E). change (F AX) with xr in *.
  assert (vsetU (w_samples w') cur (w_value w') = Ok (map (ta) s1)) as ->.
  { unfold vsetU in *. rewrite H5, H8, map_length. destruct (_ <? _)%nat; [|discriminate]. injection Es as <-. rewrite map_upd. reflexivity. }
  cbn [bind]. rewrite H6, H9, El, H8. cbn [bind]. injection E as <-. eexists. split; [reflexivity|].
  split; [|split; reflexivity]. split; [exact H1|]. cbn [w_temp w_track w_label w_samples w_logposts w_value]. split; [exact H2|]. split; [exact H3|]. split; [exact H4|].
  split; [reflexivity|]. split; [reflexivity|apply Htl].
Qed.
Lemma SetSampleSize_sim w w' N : prew w w' -> prew (SetSampleSize [] w N) (SetSampleSize [] w' N).
Proof.
  intros (H1 & H2 & H3 & H4 & H5 & H6 & H7). split; [exact H1|]. cbn [SetSampleSize w_temp w_track w_label w_samples w_logposts w_value]. split; [exact H2|]. split; [exact H3|]. split; [exact H4|].
  split; [|split; [rewrite H6; reflexivity|exact H7]]. rewrite H5. unfold resize. rewrite map_app, firstn_map, map_length. f_equal. generalize (N - length (w_samples w))%nat as k. induction k as [|k IH]; cbn; [reflexivity|]. f_equal; [symmetry; apply length_zero_iff_nil, Htl|exact IH].
Qed.
Lemma on_tracked_sim (Q : param -> param -> Prop) t (f : param -> res param) :
  (forall w w' w1, Q w w' -> f w = Ok w1 -> exists w1', f w' = Ok w1' /\ Q w1 w1') ->
  forall ws ws' ws1, Forall2 Q ws ws' -> on_tracked t f ws = Ok ws1 -> exists ws1', on_tracked t f ws' = Ok ws1' /\ Forall2 Q ws1 ws1'.
Proof.
  intros Hf. induction t as [|[l i] t IH]; intros ws ws' ws1 H E; cbn [on_tracked] in *; [injection E as <-; exists ws'; split; [reflexivity|exact H]|].
  apply bind_Ok in E. destruct E as (ws2 & E2 & E). unfold on_par in *. change (F AX) with xr in *. apply bind_Ok in E2. destruct E2 as (w & Ew & E2).
  apply bind_Ok in E2. destruct E2 as (w2 & Ew2 & E2). injection E2 as <-. destruct (F2_vget H Ew) as (w' & Ew' & Hw). rewrite Ew'. cbn [bind].
  destruct (Hf _ _ _ Hw Ew2) as (w2' & Ew2' & Hw2). rewrite Ew2'. cbn [bind]. eapply IH; [|exact E]. apply F2_upd; assumption.
Qed.
Lemma on_tracked_values t cur : forall ws ws1 : list param, on_tracked t (fun w => AddToSample w cur) ws = Ok ws1 -> map (@w_value _ _ _) ws1 = map (@w_value _ _ _) ws.
Proof.
  induction t as [|[l i] t IH]; intros ws ws1 E; cbn [on_tracked] in E; [injection E as <-; reflexivity|].
  apply bind_Ok in E. destruct E as (ws2 & E2 & E). rewrite (IH _ _ E). unfold on_par in E2. apply bind_Ok in E2. destruct E2 as (w & Ew & E2).
  apply bind_Ok in E2. destruct E2 as (w2 & Ew2 & E2). injection E2 as <-. rewrite map_upd. change (F AX) with xr in *.
  assert (w_value w2 = w_value w) as ->.
  { unfold AddToSample in Ew2. apply bind_Ok in Ew2. destruct Ew2 as (a & _ & Ew2). apply bind_Ok in Ew2. destruct Ew2 as (b & _ & Ew2). injection Ew2 as <-. reflexivity. }
  apply vgetU_nth in Ew. clear - Ew. revert i Ew. induction ws as [|a ws IH]; intros [|i] E; cbn in *; try reflexivity.
  - injection E as ->. reflexivity.
  - f_equal. apply IH, E.
Qed.
Lemma SaveValues_sim t cur y y' y1 : rely y y' -> SaveValues t cur y = Ok y1 -> exists y1', SaveValues t cur y' = Ok y1' /\ rely y1 y1'.
Proof.
  intros (H1 & H2 & H3 & H4 & H5) E. unfold SaveValues in *. apply bind_Ok in E. destruct E as (ws1 & E & Q). injection Q as <-.
  destruct (on_tracked_sim (Q := relw) (f := fun w => AddToSample w cur) (fun w w' w1 => @AddToSample_sim w w' cur w1) H1 E) as (ws1' & E' & K1).
  change (F AX) with xr in *. rewrite E'. cbn [bind]. eexists. split; [reflexivity|]. split; [exact K1|]. cbn. split; [exact H2|]. split; [exact H3|]. split; [|exact H5].
  pose proof (on_tracked_values E) as Hv. apply Forall_nth_error. intros j w Hj. apply (f_equal (fun l => nth_error l j)) in Hv. rewrite !nth_error_map, Hj in Hv. change (F AX) with xr in *.
  destruct (nth_error (y_pars y) j) as [w0|] eqn:E0; pose proof (eq_trans Hv (f_equal (option_map (@w_value AX X (list xr))) E0)) as Hv2; [|discriminate Hv2].
  injection Hv2 as Hv2. unfold realw. rewrite Hv2. exact (proj1 (Forall_nth_error _ _) H4 _ _ E0).
Qed.
Lemma sample_loop_shift thin t N : forall cur y y' y1, rely y y' -> sample_loop P draw N cur thin t y = Ok y1 ->
  exists y1', sample_loop P draw N cur thin t y' = Ok y1' /\ rely y1 y1'.
Proof using Htl Hta HLD HSave Htg Hdraw.
  induction N as [|N IH]; intros cur y y' y1 H E; cbn [sample_loop] in *; [injection E as <-; exists y'; split; [reflexivity|exact H]|].
  apply bind_Ok in E. destruct E as (y2 & E2 & E). apply bind_Ok in E. destruct E as (y3 & E3 & E).
  destruct (Iterate_shift H E2) as (y2' & E2' & H2). rewrite E2'. cbn [bind]. destruct (SaveValues_sim H2 E3) as (y3' & E3' & H3). rewrite E3'. cbn [bind]. exact (IH _ _ _ _ H3 E).
Qed.

(** ** Starting values *)
(** the parameters with an index in D have been started *)
Definition half (D : list nat) (ws ws' : list param) : Prop :=
  length ws' = length ws /\
  forall j w w', nth_error ws j = Some w -> nth_error ws' j = Some w' -> prew w w' /\ (In j D -> relw w w' /\ realw n w).
Lemma half_upd D ws ws' i w w' : half D ws ws' -> relw w w' -> realw n w -> half (i :: D) (upd ws i w) (upd ws' i w').
Proof.
  intros [Hl H] Hw Hr. split; [rewrite !upd_length; exact Hl|]. intros j a b Ha Hb. rewrite nth_error_upd in Ha, Hb.
  destruct (Nat.eqb_spec i j) as [<-|Hd].
  - assert (a = w) as -> by (destruct (nth_error ws i); [injection Ha as <-; reflexivity|discriminate]).
    assert (b = w') as -> by (destruct (nth_error ws' i); [injection Hb as <-; reflexivity|discriminate]).
    split; [exact (proj1 Hw)|intros _; split; assumption].
  - destruct (H j a b Ha Hb) as [K1 K2]. split; [exact K1|]. intros [Q|Q]; [congruence|exact (K2 Q)].
Qed.
Lemma start_loop_shift use ss : (use = false -> ns) -> forall D ws ws' g ws1 g1, half D ws ws' -> start_loop P ss use init ws g = Ok (ws1, g1) ->
  exists ws1', start_loop P ss use init' ws' g = Ok (ws1', g1) /\ half (rev (map (@step_par AX) ss) ++ D) ws1 ws1'.
Proof using Htl Hta HLD HStart HSet.
  intros Hns. induction ss as [|s ss IH]; intros D ws ws' g ws1 g1 H E; cbn [start_loop] in *; [injection E as <- <-; exists ws'; split; [reflexivity|exact H]|].
  apply bind_Ok in E. destruct E as (w & Ew & E). apply bind_Ok in E. destruct E as ([[v x] g2] & Es & E). apply bind_Ok in E. destruct E as (w1 & Ew1 & E).
  apply vgetU_nth in Ew. destruct (nth_error ws' (step_par s)) as [w'|] eqn:Ew'.
  2:{ apply nth_error_None in Ew'. rewrite (proj1 H) in Ew'. apply nth_error_None in Ew'. pose proof (eq_trans (eq_sym Ew) Ew') as Q. discriminate Q. }
  destruct (proj2 H _ _ _ Ew Ew') as [Hp _]. change (F AX) with xr in *. rewrite (vgetU_nth' _ _ Ew'). cbn [bind].
  assert (realv n v /\ exists x', (if use then o_SetStart P (w_obj w') init' g else o_Start P (w_obj w') g) = Ok (ta v, x', g2) /\ RX x x') as (Hv & x' & Es' & Hx).
  { destruct use; [exact (HSet (proj1 Hp) Es)|exact (HStart (Hns eq_refl) (proj1 Hp) Es)]. }
  change (F AX) with xr in *. rewrite Es'. cbn [bind].
  assert (prew (set_obj w x) (set_obj w' x')) as Hp1 by (split; [exact Hx|exact (proj2 Hp)]).
  destruct (@Save_sim (set_obj w x) (set_obj w' x') v w1 Hx Hp1 Hv Ew1) as (w1' & Ew1' & Hw1). change (F AX) with xr in *. rewrite Ew1'. cbn [bind].
  assert (realw n w1) as Hr1. { unfold Save in Ew1. apply bind_Ok in Ew1. destruct Ew1 as ([l x3] & _ & Q). injection Q as <-. exact Hv. }
  destruct (IH (step_par s :: D) _ _ _ _ _ (half_upd (step_par s) H Hw1 Hr1) E) as (ws1' & E' & K). exists ws1'. split; [exact E'|].
  cbn [map rev]. rewrite <- app_assoc. exact K.
Qed.
Lemma half_done D ws ws' : half D ws ws' -> (forall j, (j < length ws)%nat -> In j D) -> Forall2 relw ws ws' /\ List.Forall (@realw X n) ws.
Proof.
  revert D ws'. enough (forall (ws ws' : list param), length ws' = length ws -> (forall j w w', nth_error ws j = Some w -> nth_error ws' j = Some w' -> relw w w' /\ realw n w) ->
    Forall2 relw ws ws' /\ List.Forall (@realw X n) ws) as K.
  { intros D ws' [Hl H] HD. apply K; [exact Hl|]. intros j w w' E E'. apply (H j w w' E E'), HD. apply nth_error_Some. congruence. }
  clear. induction ws as [|w ws IH]; intros [|w' ws'] Hl H; cbn in Hl; try discriminate; [split; constructor|].
  destruct (IH ws') as [K1 K2]; [lia|intros j a b Ha Hb; exact (H (S j) a b Ha Hb)|]. destruct (H 0%nat w w' eq_refl eq_refl). split; constructor; assumption.
Qed.
Lemma prew_half ws ws' : Forall2 prew ws ws' -> half [] ws ws'.
Proof.
  intros H. split; [clear -H; induction H; cbn; congruence|]. intros j w w' E E'. destruct (F2_nth H E) as (w2 & E2 & Hp). assert (w2 = w') by congruence. subst w2. split; [exact Hp|intros []].
Qed.

(** ** Sampler::Run *)
Lemma on_tracked_all (Q : param -> Prop) t (f : param -> res param) : (forall w w1, Q w -> f w = Ok w1 -> Q w1) ->
  forall ws ws1, List.Forall Q ws -> on_tracked t f ws = Ok ws1 -> List.Forall Q ws1.
Proof.
  intros Hf. induction t as [|[l i] t IH]; intros ws ws1 H E; cbn [on_tracked] in E; [injection E as <-; exact H|].
  apply bind_Ok in E. destruct E as (ws2 & E2 & E). refine (IH _ _ _ E). unfold on_par in E2. apply bind_Ok in E2. destruct E2 as (w & Ew & E2).
  apply bind_Ok in E2. destruct E2 as (w2 & Ew2 & E2). injection E2 as <-. rewrite Forall_nth_error in *. intros j a Ha. rewrite nth_error_upd in Ha.
  destruct (Nat.eqb_spec i j) as [<-|_]; [|exact (H _ _ Ha)]. destruct (nth_error ws i) as [w0|]; [|discriminate]. injection Ha as <-.
  exact (Hf _ _ (H _ _ (vgetU_nth _ _ Ew)) Ew2).
Qed.
Theorem Run_shift N burnin thin t (y y' : sys) y1 : Forall2 prew (y_pars y) (y_pars y') -> y_steps y' = y_steps y -> y_gen y' = y_gen y ->
  (forall i r, In (SRam i r) (y_steps y) -> good_ram n tg r) ->
  (forall j, (j < length (y_pars y))%nat -> In j (map (@step_par AX) (y_steps y))) ->
  (ns \/ forall w, In w (y_pars y) -> length (w_value w) = length init) ->
  Run P draw N burnin thin t init y = Ok y1 -> exists y1', Run P draw N burnin thin t init' y' = Ok y1' /\ rely y1 y1'.
Proof using Htl Hta HLD HSave HStart HSet Hinit Htg Hdraw.
  intros Hp Hs Hg Hram Hcov Huse E. unfold Run in *. apply bind_Ok in E. destruct E as (ws1 & E1 & E). apply bind_Ok in E. destruct E as (s0 & Es0 & E).
  apply bind_Ok in E. destruct E as (w0 & Ew0 & E). cbv zeta in *. apply bind_Ok in E. destruct E as ([ws2 g2] & E2 & E). apply bind_Ok in E. destruct E as (y3 & E3 & E).
  destruct (on_tracked_sim (Q := prew) (t := t) (f := fun w => Ok (SetSampleSize [] w N))) with (ws := y_pars y) (ws' := y_pars y') (ws1 := ws1) as (ws1' & E1' & H1); [|exact Hp|exact E1|].
  { intros w w' w1 Hw Q. injection Q as <-. eexists. split; [reflexivity|]. apply SetSampleSize_sim, Hw. }
  change (F AX) with xr in *. rewrite E1'. cbn [bind]. rewrite Hs, Es0. cbn [bind]. destruct (F2_vget H1 Ew0) as (w0' & Ew0' & Hw0). rewrite Ew0'. cbn [bind].
  assert (length (w_value w0') = length (w_value w0)) as Hlw by (apply Hw0). rewrite Hlw, Hinit, Hg.
  assert ((length init =? length (w_value w0))%nat = false -> ns) as Hns.
  { intros Q. destruct Huse as [K|K]; [exact K|]. exfalso. apply Nat.eqb_neq in Q. apply Q. symmetry.
    assert (List.Forall (fun w : param => length (w_value w) = length init) (y_pars y)) as K0 by (apply Forall_forall; exact K).
    assert (List.Forall (fun w : param => length (w_value w) = length init) ws1) as K1.
    { refine (@on_tracked_all _ _ (fun w => Ok (SetSampleSize [] w N)) _ _ _ K0 E1). intros w w1 Hw R1. injection R1 as <-. exact Hw. }
    exact (proj1 (Forall_nth_error _ _) K1 _ _ (vgetU_nth _ _ Ew0)). }
  destruct (start_loop_shift Hns (prew_half H1) E2) as (ws2' & E2' & H2). rewrite E2'. cbn [bind]. rewrite app_nil_r in H2.
  assert (length ws2 = length (y_pars y)) as L2.
  { pose proof (start_loop_started _ _ _ _ _ _ E2) as St. destruct (started_len St) as [L _]. change (F AX) with xr in *. rewrite L.
    clear - E1. revert ws1 E1. generalize (y_pars y) as ws. induction t as [|[l i] t IH]; intros ws ws1 E; cbn [on_tracked] in E; [injection E as <-; reflexivity|].
    apply bind_Ok in E. destruct E as (ws2 & E2 & E). rewrite (IH _ _ E). unfold on_par in E2. apply bind_Ok in E2. destruct E2 as (w & Ew & E2). cbn [bind] in E2. injection E2 as <-. apply upd_length. }
  destruct (half_done H2) as [H3 H4]. { intros j Hj. rewrite <- in_rev. apply Hcov. exact (eq_ind _ (fun k => (j < k)%nat) Hj _ L2). }
  assert (rely (mkSys ws2 (y_steps y) g2) (mkSys ws2' (y_steps y) g2)) as H5.
  { split; [exact H3|]. split; [reflexivity|]. split; [reflexivity|]. split; [exact H4|exact Hram]. }
  destruct (Iterate_shift H5 E3) as (y3' & E3' & H6). rewrite E3'. cbn [bind]. exact (sample_loop_shift H6 E).
Qed.
End Sim.
