(** The engine: what a run records, what steps preserve. *)
From Coq Require Import List Arith ZArith Bool String Lia.
From Verif Require Import Arith Res ListLemmas History EngineModel EngineSpec.
Import ListNotations.

Set Implicit Arguments.

Section Eng.
Variable A : Arith.
Variable R : rng A.
Variable X : Type.
Local Notation F := (F A).
Local Notation vec := (list F).
Variable P : methodsP R X vec.
Variable draw : F -> gen R -> F * gen R.
Local Notation param := (param A X vec).
Local Notation sys := (sys R X).
Local Notation "# z" := (fofZ A z) (at level 5).

(** ** Lists *)
Lemma vgetU_nth T (l : list T) i x : vgetU l i = Ok x -> nth_error l i = Some x.
Proof. unfold vgetU. destruct (nth_error l i); [congruence|discriminate]. Qed.
Lemma vgetU_nth' T (l : list T) i x : nth_error l i = Some x -> vgetU l i = Ok x.
Proof. intros H. unfold vgetU. rewrite H. reflexivity. Qed.
Lemma nth_error_upd T (l : list T) i j v : nth_error (upd l i v) j = if i =? j then (match nth_error l i with Some _ => Some v | None => None end) else nth_error l j.
Proof.
  revert i j; induction l as [|a l IH]; intros i j.
  - destruct i, j; cbn; try reflexivity. destruct (i =? j); reflexivity.
  - destruct i, j; cbn; try reflexivity. apply IH.
Qed.
Lemma upd_none T (l : list T) i v : nth_error l i = None -> upd l i v = l.
Proof. revert i; induction l as [|a l IH]; intros [|i] H; cbn in *; try reflexivity; [discriminate|]. rewrite IH by exact H. reflexivity. Qed.
Lemma upd_split T (l : list T) i w v : nth_error l i = Some w -> upd l i v = firstn i l ++ v :: skipn (S i) l.
Proof.
  revert i; induction l as [|a l IH]; intros [|i] H; cbn in *; try discriminate; [reflexivity|]. rewrite (IH i H). reflexivity.
Qed.
Lemma Forall_nth_error T (Q : T -> Prop) l : Forall Q l <-> forall i x, nth_error l i = Some x -> Q x.
Proof.
  split.
  - intros H i x E. apply nth_error_In in E. rewrite Forall_forall in H. apply H, E.
  - intros H. apply Forall_forall. intros x Hx. apply In_nth_error in Hx. destruct Hx as [i Hi]. eapply H, Hi.
Qed.
Lemma Forall_upd T (Q : T -> Prop) l i v : Forall Q l -> Q v -> Forall Q (upd l i v).
Proof. intros H Hv. revert i; induction H as [|x l Hx Hl IH]; intros [|i]; cbn; constructor; auto. Qed.

(** ** Records (samples_, logposts_) never influence steps *)
Definition recd := (list vec * list F)%type.
Definition rec_of (w : param) : recd := (w_samples w, w_logposts w).
Definition with_rec (w : param) (r : recd) : param :=
  mkW A (w_obj w) (w_value w) (w_logpost w) (w_temp w) (w_track w) (w_label w) (fst r) (snd r).
Definition zip (ws : list param) (rs : list recd) : list param := map (fun p => with_rec (fst p) (snd p)) (combine ws rs).
Local Notation d0 := (([], []) : recd).

Lemma with_rec_self w : with_rec w (rec_of w) = w.
Proof. destruct w; reflexivity. Qed.
Lemma zip_self ws : zip ws (map rec_of ws) = ws.
Proof. induction ws as [|w ws IH]; [reflexivity|]. unfold zip in *. cbn. rewrite with_rec_self, IH. reflexivity. Qed.
Lemma zip_rec ws rs : List.length rs = List.length ws -> map rec_of (zip ws rs) = rs.
Proof.
  revert rs; induction ws as [|w ws IH]; intros [|[s l] rs] H; try discriminate; [reflexivity|]. unfold zip in *. cbn.
  f_equal. apply IH. cbn in H. lia.
Qed.
Lemma zip_len ws rs : List.length rs = List.length ws -> List.length (zip ws rs) = List.length ws.
Proof. intros H. unfold zip. rewrite map_length, combine_length. lia. Qed.
Lemma zip_vget ws rs i : List.length rs = List.length ws ->
  vgetU (zip ws rs) i = (w <- vgetU ws i ;; Ok (with_rec w (nth i rs d0))).
Proof.
  revert rs i; induction ws as [|w ws IH]; intros [|r rs] i H; try discriminate.
  - destruct i; reflexivity.
  - destruct i; [reflexivity|]. cbn in H. specialize (IH rs i ltac:(lia)). exact IH.
Qed.
Lemma zip_upd ws rs i w : List.length rs = List.length ws ->
  upd (zip ws rs) i (with_rec w (nth i rs d0)) = zip (upd ws i w) rs.
Proof.
  revert rs i; induction ws as [|w0 ws IH]; intros [|r rs] i H; try discriminate.
  - reflexivity.
  - destruct i; [reflexivity|]. cbn in H. specialize (IH rs i ltac:(lia)). unfold zip in *. cbn. rewrite IH. reflexivity.
Qed.

Lemma LD_rec w r v : LD P (with_rec w r) v = ('(l, w') <- LD P w v ;; Ok (l, with_rec w' r)).
Proof. unfold LD. cbn. destruct (o_LogDensity P (w_obj w) v) as [[l x]|e| |]; reflexivity. Qed.
Lemma Save_rec w r v : Save P (with_rec w r) v = (w' <- Save P w v ;; Ok (with_rec w' r)).
Proof. unfold Save. cbn. destruct (o_LogDensity P (w_obj w) v) as [[l x]|e| |]; reflexivity. Qed.
Lemma SaveDerived_rec w r v : SaveDerived P (with_rec w r) v = (w' <- SaveDerived P w v ;; Ok (with_rec w' r)).
Proof. unfold SaveDerived. cbn. destruct (o_Save P (w_obj w) v) as [l|e| |]; reflexivity. Qed.

Lemma ram_accept_rec r w rc new g :
  ram_accept P r (with_rec w rc) new g = ('(a, r', w', g') <- ram_accept P r w new g ;; Ok (a, r', with_rec w' rc, g')).
Proof.
  unfold ram_accept. rewrite LD_rec. destruct (LD P w new) as [[l w1]|e| |]; cbn [bind]; try reflexivity.
  cbn [w_logpost w_temp with_rec]. destruct (negb _); [reflexivity|].
  destruct (runiform _ _ g) as [u g1]. destruct (flt A u _); reflexivity.
Qed.
Lemma ram_step_rec r w rc g :
  ram_step P draw r (with_rec w rc) g = ('(r', w', g') <- ram_step P draw r w g ;; Ok (r', with_rec w' rc, g')).
Proof.
  unfold ram_step. cbn [w_value with_rec]. destruct (draws _ _ g) as [u g1].
  destruct (mtmul (r_chol r) u) as [sc|e| |]; cbn [bind]; try reflexivity.
  destruct (vadd _ (w_value w) sc) as [new|e| |]; cbn [bind]; try reflexivity.
  rewrite ram_accept_rec. destruct (ram_accept P r w new g1) as [[[[a r1] w1] g2]|e| |]; cbn [bind]; try reflexivity.
  destruct a.
  - rewrite Save_rec. destruct (Save P w1 new) as [w2|e| |]; cbn [bind]; try reflexivity.
    destruct (ram_adapt r1 u sc); reflexivity.
  - cbn [bind]. destruct (ram_adapt r1 u sc); reflexivity.
Qed.
Lemma exch_step_rec e w rw o ro g :
  exch_step P e (with_rec w rw) (with_rec o ro) g =
  ('(e', w', o', g') <- exch_step P e w o g ;; Ok (e', with_rec w' rw, with_rec o' ro, g')).
Proof.
  unfold exch_step. cbn [w_logpost w_temp w_value with_rec]. destruct (runiform _ _ g) as [u g1].
  destruct (flt A u _); [|reflexivity].
  rewrite Save_rec. destruct (Save P w (w_value o)) as [w1|ex| |]; cbn [bind]; try reflexivity.
  rewrite SaveDerived_rec. destruct (SaveDerived P o (w_value w)) as [o1|ex| |]; cbn [bind]; reflexivity.
Qed.

Lemma zip_nth_upd (ws : list param) i w : List.length (upd ws i w) = List.length ws.
Proof. apply upd_length. Qed.

Lemma do_step_rec s ws rs g : List.length rs = List.length ws ->
  do_step P draw s (zip ws rs) g = ('(s', ws', g') <- do_step P draw s ws g ;; Ok (s', zip ws' rs, g')).
Proof.
  intros H. destruct s as [i r|[|j] e]; cbn [do_step].
  - rewrite zip_vget by exact H. destruct (vgetU ws i) as [w|ex| |]; cbn [bind]; try reflexivity.
    rewrite ram_step_rec. destruct (ram_step P draw r w g) as [[[r' w'] g']|ex| |]; cbn [bind]; try reflexivity.
    rewrite zip_upd by exact H. reflexivity.
  - reflexivity.
  - rewrite !zip_vget by exact H. destruct (vgetU ws (S j)) as [w|ex| |]; cbn [bind]; try reflexivity.
    destruct (vgetU ws j) as [o|ex| |]; cbn [bind]; try reflexivity.
    rewrite exch_step_rec. destruct (exch_step P e w o g) as [[[[e' w'] o'] g']|ex| |]; cbn [bind]; try reflexivity.
    rewrite zip_upd by exact H. rewrite zip_upd by (rewrite upd_length; exact H). reflexivity.
Qed.
Lemma do_step_len s ws g s' ws' g' : do_step P draw s ws g = Ok (s', ws', g') -> List.length ws' = List.length ws.
Proof.
  destruct s as [i r|[|j] e]; cbn [do_step]; intros E; [| discriminate |].
  - apply bind_Ok in E. destruct E as (w & _ & E). apply bind_Ok in E. destruct E as ([[r' w'] g1] & _ & E).
    injection E as _ <- _. apply upd_length.
  - apply bind_Ok in E. destruct E as (w & _ & E). apply bind_Ok in E. destruct E as (o & _ & E).
    apply bind_Ok in E. destruct E as ([[[e' w'] o'] g1] & _ & E). injection E as _ <- _. rewrite !upd_length. reflexivity.
Qed.
Lemma do_step_keeps s ws g s' ws' g' : do_step P draw s ws g = Ok (s', ws', g') -> map rec_of ws' = map rec_of ws.
Proof.
  intros E. pose proof (do_step_rec s ws (map rec_of ws) g (map_length _ _)) as H. rewrite zip_self, E in H. cbn [bind] in H.
  injection H as H. rewrite H. apply zip_rec. rewrite map_length. symmetry. eapply do_step_len, E.
Qed.

Lemma sweep_steps_rec ss : forall ws rs g, List.length rs = List.length ws ->
  sweep_steps P draw ss (zip ws rs) g = ('(ss', ws', g') <- sweep_steps P draw ss ws g ;; Ok (ss', zip ws' rs, g')).
Proof.
  induction ss as [|s ss IH]; intros ws rs g H; [reflexivity|]. cbn [sweep_steps]. rewrite do_step_rec by exact H.
  destruct (do_step P draw s ws g) as [[[s' ws1] g1]|e| |] eqn:E; cbn [bind]; try reflexivity.
  rewrite IH by (rewrite (do_step_len _ _ _ E); exact H).
  destruct (sweep_steps P draw ss ws1 g1) as [[[ss' ws2] g2]|e| |]; reflexivity.
Qed.
Lemma sweep_steps_len ss : forall ws g ss' ws' g', sweep_steps P draw ss ws g = Ok (ss', ws', g') -> List.length ws' = List.length ws.
Proof.
  induction ss as [|s ss IH]; intros ws g ss' ws' g' E; cbn [sweep_steps] in E.
  - injection E as _ <- _. reflexivity.
  - apply bind_Ok in E. destruct E as ([[s1 ws1] g1] & E1 & E). apply bind_Ok in E. destruct E as ([[r1 ws2] g2] & E2 & E).
    injection E as _ <- _. rewrite (IH _ _ _ _ _ E2). eapply do_step_len, E1.
Qed.
Definition zips (y : sys) (rs : list recd) : sys := mkSys (zip (y_pars y) rs) (y_steps y) (y_gen y).
Lemma sweep_len y y' : sweep P draw y = Ok y' -> List.length (y_pars y') = List.length (y_pars y).
Proof.
  unfold sweep. intros E. apply bind_Ok in E. destruct E as ([[ss ws] g] & E & Q). injection Q as <-. cbn. eapply sweep_steps_len, E.
Qed.
Lemma sweep_rec y rs : List.length rs = List.length (y_pars y) ->
  sweep P draw (zips y rs) = (y' <- sweep P draw y ;; Ok (zips y' rs)).
Proof.
  intros H. unfold sweep. cbn [y_pars y_steps y_gen zips]. rewrite sweep_steps_rec by exact H.
  destruct (sweep_steps P draw (y_steps y) (y_pars y) (y_gen y)) as [[[ss ws] g]|e| |]; reflexivity.
Qed.
Lemma Iterate_len n : forall y y', Iterate P draw n y = Ok y' -> List.length (y_pars y') = List.length (y_pars y).
Proof.
  induction n as [|n IH]; intros y y' E; cbn [Iterate] in E; [injection E as <-; reflexivity|].
  apply bind_Ok in E. destruct E as (y1 & E1 & E). rewrite (IH _ _ E). apply sweep_len, E1.
Qed.
Lemma Iterate_rec n : forall y rs, List.length rs = List.length (y_pars y) ->
  Iterate P draw n (zips y rs) = (y' <- Iterate P draw n y ;; Ok (zips y' rs)).
Proof.
  induction n as [|n IH]; intros y rs H; [reflexivity|]. cbn [Iterate]. rewrite sweep_rec by exact H.
  destruct (sweep P draw y) as [y1|e| |] eqn:E; cbn [bind]; try reflexivity. apply IH. rewrite (sweep_len _ E). exact H.
Qed.

(** ** Iterate and sweeps *)
Lemma in_order_ok ss ws g ss' ws' g' : sweep_steps P draw ss ws g = Ok (ss', ws', g') -> in_order P draw ss ws g ss' ws' g'.
Proof.
  revert ws g ss' ws' g'; induction ss as [|s ss IH]; intros ws g ss' ws' g' E; cbn [sweep_steps] in E.
  - injection E as <- <- <-. constructor.
  - apply bind_Ok in E. destruct E as ([[s1 ws1] g1] & E1 & E). apply bind_Ok in E. destruct E as ([[r1 ws2] g2] & E2 & E).
    injection E as <- <- <-. econstructor; eauto.
Qed.
Lemma in_order_inv ss ws g ss' ws' g' : in_order P draw ss ws g ss' ws' g' -> sweep_steps P draw ss ws g = Ok (ss', ws', g').
Proof. intros H. induction H as [|s ss ws g s' ws1 g1 ss' ws2 g2 E _ IH]; [reflexivity|]. cbn [sweep_steps]. rewrite E. cbn [bind]. rewrite IH. reflexivity. Qed.
Lemma sweeps_sweep y1 y2 : sweep P draw y1 = Ok y2 <-> in_order P draw (y_steps y1) (y_pars y1) (y_gen y1) (y_steps y2) (y_pars y2) (y_gen y2).
Proof.
  unfold sweep. split; intros H.
  - apply bind_Ok in H. destruct H as ([[ss ws] g] & E & Q). injection Q as <-. cbn. apply in_order_ok, E.
  - apply in_order_inv in H. rewrite H. destruct y2; reflexivity.
Qed.
Lemma sweeps_trans m n y1 y2 y3 : sweeps P draw m y1 y2 -> sweeps P draw n y2 y3 -> sweeps P draw (m + n) y1 y3.
Proof.
  intros H1 H2. revert H1. induction H2 as [y|n y ya yb _ IH H]; intros H1; [rewrite Nat.add_0_r; exact H1|].
  rewrite Nat.add_succ_r. econstructor; [apply IH, H1|exact H].
Qed.
Lemma sweeps_det n y y1 : sweeps P draw n y y1 -> forall y2, sweeps P draw n y y2 -> y1 = y2.
Proof.
  intros H. induction H as [y|n y ya yb _ IH H]; intros y2 H2; inversion H2; subst; [reflexivity|].
  match goal with H0 : sweeps _ _ n _ ?z |- _ => specialize (IH z H0); subst end.
  pose proof (proj2 (sweeps_sweep _ _) H) as E1.
  match goal with H0 : in_order _ _ _ _ _ (y_steps y2) _ _ |- _ => pose proof (proj2 (sweeps_sweep _ _) H0) as E2 end.
  congruence.
Qed.
Lemma Iterate_sweeps n : forall y y', Iterate P draw n y = Ok y' -> sweeps P draw n y y'.
Proof.
  induction n as [|n IH]; intros y y' E; cbn [Iterate] in E; [injection E as <-; constructor|].
  apply bind_Ok in E. destruct E as (y1 & E1 & E). change (S n) with (1 + n).
  apply sweeps_trans with y1; [|apply IH, E]. econstructor; [constructor|]. apply sweeps_sweep, E1.
Qed.

(** ** Recording *)
(** the records after the first [cur] samples: entry i from state [st i] *)
Definition tracks (t : tracked) (j : nat) : Prop := In j (map snd t).

Lemma on_tracked_rec t (f : param -> res param) ws ws' (Hf : forall w w', f w = Ok w' -> exists r, w' = with_rec w r) :
  on_tracked t f ws = Ok ws' -> exists rs, List.length rs = List.length ws /\ ws' = zip ws rs.
Proof.
  revert ws; induction t as [|[l i] t IH]; intros ws E; cbn [on_tracked] in E.
  - injection E as <-. exists (map rec_of ws). rewrite zip_self, map_length. split; reflexivity.
  - apply bind_Ok in E. destruct E as (ws1 & E1 & E). unfold on_par in E1. apply bind_Ok in E1. destruct E1 as (w & Ew & E1).
    apply bind_Ok in E1. destruct E1 as (w' & Ew' & E1). injection E1 as <-.
    destruct (IH _ E) as (rs & Hl & ->). rewrite upd_length in Hl. exists rs. split; [exact Hl|].
    destruct (Hf _ _ Ew') as [r ->]. apply vgetU_nth in Ew.
    assert (List.length ws = List.length rs) as Hl' by lia. clear - Ew Hl'.
    unfold zip. revert i rs Ew Hl'. induction ws as [|a ws IHw]; intros [|i] [|r0 rs] Ew Hl'; try discriminate; cbn in *.
    + injection Ew as <-. reflexivity.
    + f_equal. apply IHw; [exact Ew|lia].
Qed.

(** AddToSample on every tracked parameter *)
Lemma save_values_nth t cur (ws ws' : list param) : on_tracked t (fun w => AddToSample w cur) ws = Ok ws' ->
  forall j (w w' : param), nth_error ws j = Some w -> nth_error ws' j = Some w' ->
    (tracks t j -> cur < List.length (w_samples w) /\ cur < List.length (w_logposts w) /\
       w_samples w' = upd (w_samples w) cur (w_value w) /\ w_logposts w' = upd (w_logposts w) cur (w_logpost w)) /\
    (~ tracks t j -> w' = w).
Proof.
  revert ws; induction t as [|[l i] t IH]; intros ws E j w w' Hw Hw'; cbn [on_tracked] in E.
  - injection E as <-. split; [intros []|]. intros _. congruence.
  - apply bind_Ok in E. destruct E as (ws1 & E1 & E). unfold on_par in E1. apply bind_Ok in E1. destruct E1 as (wi & Ew & E1).
    apply bind_Ok in E1. destruct E1 as (wi' & Ew' & E1). injection E1 as <-. apply vgetU_nth in Ew.
    unfold AddToSample in Ew'. apply bind_Ok in Ew'. destruct Ew' as (s & Es & Ew'). apply bind_Ok in Ew'. destruct Ew' as (lp & El & Ew').
    unfold vsetU in Es, El. destruct (Nat.ltb_spec cur (List.length (w_samples wi))) as [Hs|]; [|discriminate].
    destruct (Nat.ltb_spec cur (List.length (w_logposts wi))) as [Hl|]; [|discriminate]. injection Es as <-. injection El as <-. injection Ew' as <-.
    set (wn := mkW _ _ _ _ _ _ _ _ _) in E. unfold tracks in *. cbn [map snd In].
    destruct (Nat.eq_dec i j) as [->|Hne].
    + assert (wi = w) by congruence. subst wi.
      assert (nth_error (upd ws j wn) j = Some wn) as Hn by (rewrite nth_error_upd, Nat.eqb_refl, Hw; reflexivity).
      specialize (IH _ E j wn w' Hn Hw'). destruct IH as [IH1 IH2].
      split; [|intros H; exfalso; apply H; left; reflexivity]. intros _. split; [exact Hs|]. split; [exact Hl|].
      destruct (in_dec Nat.eq_dec j (map snd t)) as [Hi|Hi].
      * destruct (IH1 Hi) as (_ & _ & -> & ->). subst wn; cbn. split.
        -- generalize (w_samples w). intros l0. revert l0; clear. induction cur as [|c IHc]; intros [|a l0]; cbn; try reflexivity. f_equal. apply IHc.
        -- generalize (w_logposts w). intros l0. revert l0; clear. induction cur as [|c IHc]; intros [|a l0]; cbn; try reflexivity. f_equal. apply IHc.
      * rewrite (IH2 Hi). subst wn; cbn. split; reflexivity.
    + assert (nth_error (upd ws i wn) j = Some w) as Hn by (rewrite nth_error_upd; apply Nat.eqb_neq in Hne; rewrite Hne; exact Hw).
      specialize (IH _ E j w w' Hn Hw'). destruct IH as [IH1 IH2]. split.
      * intros [H|H]; [contradiction|]. apply IH1, H.
      * intros H. apply IH2. intros Hi. apply H. right; exact Hi.
Qed.

(** states y and z agree up to the records *)
Definition agree (y z : sys) : Prop := exists rs, List.length rs = List.length (y_pars y) /\ z = zips y rs.

Lemma zip_zip ws rs rs' : List.length rs = List.length ws -> zip (zip ws rs) rs' = zip ws rs'.
Proof.
  revert rs rs'; induction ws as [|w ws IH]; intros [|r rs] [|r' rs'] H; try discriminate; try reflexivity.
  unfold zip in *. cbn. f_equal. apply IH. cbn in H. lia.
Qed.
Lemma agree_refl y : agree y y.
Proof. exists (map rec_of (y_pars y)). split; [apply map_length|]. unfold zips. rewrite zip_self. destruct y; reflexivity. Qed.
Lemma agree_nth y z j : agree y z -> forall w, nth_error (y_pars z) j = Some w ->
  exists w0, nth_error (y_pars y) j = Some w0 /\ w_value w = w_value w0 /\ w_logpost w = w_logpost w0.
Proof.
  intros (rs & Hl & ->) w Hw. cbn in Hw. pose proof (zip_vget (y_pars y) rs j Hl) as H. rewrite (vgetU_nth' _ _ Hw) in H.
  symmetry in H. apply bind_Ok in H. destruct H as (w0 & E & H). apply vgetU_nth in E. injection H as <-. exists w0. split; [exact E|split; reflexivity].
Qed.
Lemma agree_Iterate n y z z' : agree y z -> Iterate P draw n z = Ok z' -> exists y', Iterate P draw n y = Ok y' /\ agree y' z'.
Proof.
  intros (rs & Hl & ->) E. rewrite Iterate_rec in E by exact Hl. apply bind_Ok in E. destruct E as (y' & E & Q). injection Q as <-.
  exists y'. split; [exact E|]. exists rs. split; [|reflexivity]. rewrite (Iterate_len _ _ E). exact Hl.
Qed.
Lemma AddToSample_rec w i w' : AddToSample w i = Ok w' -> exists r, w' = with_rec w r.
Proof.
  unfold AddToSample. intros E. apply bind_Ok in E. destruct E as (s & _ & E). apply bind_Ok in E. destruct E as (l & _ & E).
  injection E as <-. exists (s, l). reflexivity.
Qed.
Lemma agree_Save t cur (y z z' : sys) : agree y z -> SaveValues t cur z = Ok z' -> agree y z'.
Proof.
  intros (rs & Hl & ->) E. unfold SaveValues in E. apply bind_Ok in E. destruct E as (ws & E & Q). injection Q as <-.
  destruct (on_tracked_rec _ _ _ (fun w w' => @AddToSample_rec w cur w') E) as (rs' & Hl' & ->). cbn [y_pars zips] in *.
  rewrite zip_len in Hl' by exact Hl. exists rs'. split; [exact Hl'|]. unfold zips. rewrite zip_zip by exact Hl. reflexivity.
Qed.

Lemma Iterate_keeps n y y' : Iterate P draw n y = Ok y' -> map rec_of (y_pars y') = map rec_of (y_pars y).
Proof.
  intros E. pose proof (Iterate_rec n y (map rec_of (y_pars y)) (map_length _ _)) as H.
  assert (zips y (map rec_of (y_pars y)) = y) as Hs by (unfold zips; rewrite zip_self; destruct y; reflexivity).
  rewrite Hs, E in H. cbn [bind] in H. injection H as H. rewrite H. unfold zips; cbn [y_pars]. apply zip_rec. rewrite map_length. symmetry.
  apply (Iterate_len _ _ E).
Qed.
Lemma SaveValues_len t cur (z z' : sys) : SaveValues t cur z = Ok z' -> List.length (y_pars z') = List.length (y_pars z).
Proof.
  unfold SaveValues. intros E. apply bind_Ok in E. destruct E as (ws & E & Q). injection Q as <-.
  destruct (on_tracked_rec _ _ _ (fun w w' => @AddToSample_rec w cur w') E) as (rs & Hl & ->). cbn. apply zip_len, Hl.
Qed.

Lemma sample_loop_len n : forall cur thin t z z', sample_loop P draw n cur thin t z = Ok z' ->
  List.length (y_pars z') = List.length (y_pars z).
Proof.
  induction n as [|n IH]; intros cur thin t z z' E; cbn [sample_loop] in E.
  - injection E as <-. reflexivity.
  - apply bind_Ok in E. destruct E as (z1 & E1 & E). apply bind_Ok in E. destruct E as (z2 & E2 & E).
    rewrite (IH _ _ _ _ _ E), (@SaveValues_len _ _ _ _ E2), (@Iterate_len _ _ _ E1). reflexivity.
Qed.

(** the sampling loop started in a state that agrees with y *)
Lemma sample_loop_spec n : forall cur thin t y z z', agree y z -> sample_loop P draw n cur thin t z = Ok z' ->
  (exists y', sweeps P draw (n * thin) y y' /\ agree y' z') /\
  (forall j w w', tracks t j -> nth_error (y_pars z) j = Some w -> nth_error (y_pars z') j = Some w' ->
     List.length (w_samples w') = List.length (w_samples w) /\ List.length (w_logposts w') = List.length (w_logposts w) /\
     (forall i, i < cur \/ cur + n <= i -> nth_error (w_samples w') i = nth_error (w_samples w) i /\
                         nth_error (w_logposts w') i = nth_error (w_logposts w) i) /\
     forall i, i < n -> exists yi wi, sweeps P draw ((i + 1) * thin) y yi /\ nth_error (y_pars yi) j = Some wi /\
       nth_error (w_samples w') (cur + i) = Some (w_value wi) /\ nth_error (w_logposts w') (cur + i) = Some (w_logpost wi)).
Proof.
  induction n as [|n IH]; intros cur thin t y z z' Ha E; cbn [sample_loop] in E.
  - injection E as <-. split; [exists y; split; [constructor|exact Ha]|].
    intros j w w' Hj H1 H2. assert (w' = w) by congruence. subst w'. split; [reflexivity|]. split; [reflexivity|].
    split; [intros; split; reflexivity|]. intros i Hi. lia.
  - apply bind_Ok in E. destruct E as (z1 & E1 & E). apply bind_Ok in E. destruct E as (z2 & E2 & E).
    destruct (@agree_Iterate _ _ _ _ Ha E1) as (y1 & Ey1 & Ha1). apply Iterate_sweeps in Ey1.
    pose proof (@agree_Save _ _ _ _ _ Ha1 E2) as Ha2. destruct (IH _ _ _ _ _ _ Ha2 E) as [(y' & Hs & Ha') Hrec].
    split.
    { exists y'. split; [|exact Ha']. change (S n * thin) with (thin + n * thin). eapply sweeps_trans; eassumption. }
    intros j w w' Hj Hw Hw'.
    pose proof (@SaveValues_len _ _ _ _ E2) as L2. pose proof (@Iterate_len _ _ _ E1) as L1.
    assert (j < List.length (y_pars z)) as Hjl by (apply nth_error_Some; congruence).
    destruct (nth_error (y_pars z1) j) as [w1|] eqn:Hw1; [|apply nth_error_None in Hw1; lia].
    destruct (nth_error (y_pars z2) j) as [w2|] eqn:Hw2; [|apply nth_error_None in Hw2; lia].
    assert (rec_of w1 = rec_of w) as Er.
    { pose proof (@Iterate_keeps _ _ _ E1) as Hk. apply (f_equal (fun l => nth_error l j)) in Hk. rewrite !nth_error_map, Hw1, Hw in Hk. cbn in Hk. injection Hk as Hk1 Hk2. unfold rec_of. congruence. }
    injection Er as Er1 Er2.
    unfold SaveValues in E2. apply bind_Ok in E2. destruct E2 as (ws2 & E2 & Q). injection Q as <-. cbn [y_pars] in *.
    destruct (@save_values_nth _ _ _ _ E2 j _ _ Hw1 Hw2) as [Hsv _]. destruct (Hsv Hj) as (Hc1 & Hc2 & Es & El).
    specialize (Hrec j w2 w' Hj Hw2 Hw'). destruct Hrec as (R1 & R2 & R3 & R4).
    split; [rewrite R1, Es, upd_length, Er1; reflexivity|]. split; [rewrite R2, El, upd_length, Er2; reflexivity|]. split.
    { intros i Hi. destruct (R3 i ltac:(lia)) as [-> ->]. rewrite Es, El, Er1, Er2, !nth_error_upd.
      assert (cur =? i = false) as -> by (apply Nat.eqb_neq; lia). split; reflexivity. }
    intros [|i] Hi.
    + destruct (@agree_nth _ _ _ Ha1 _ Hw1) as (w0 & Hw0 & Ev & El0). exists y1, w0. rewrite Nat.add_0_r.
      split; [cbn; rewrite Nat.add_0_r; exact Ey1|]. split; [exact Hw0|]. destruct (R3 cur ltac:(lia)) as [-> ->].
      rewrite Es, El, !nth_error_upd, Nat.eqb_refl, <- Ev, <- El0.
      rewrite (nth_error_nth' (w_samples w1) [] Hc1), (nth_error_nth' (w_logposts w1) (#0) Hc2). split; reflexivity.
    + destruct (R4 i ltac:(lia)) as (yi & wi & Hsi & Hwi & H1 & H2). exists yi, wi.
      split; [replace ((S i + 1) * thin) with (thin + (i + 1) * thin) by (cbn; lia); eapply sweeps_trans; eassumption|].
      split; [exact Hwi|]. replace (cur + S i) with (S cur + i) by lia. split; assumption.
Qed.

(** ** Starting values *)
Lemma start_loop_started ss use init : forall ws g ws' g', start_loop P ss use init ws g = Ok (ws', g') ->
  started P use init ss ws g ws' g'.
Proof.
  induction ss as [|s ss IH]; intros ws g ws' g' E; cbn [start_loop] in E.
  - injection E as <- <-. constructor.
  - apply bind_Ok in E. destruct E as (w & Ew & E). apply bind_Ok in E. destruct E as ([[v x] g1] & Es & E).
    apply bind_Ok in E. destruct E as (w' & Ew' & E). apply vgetU_nth in Ew. unfold Save in Ew'. cbn [w_obj set_obj] in Ew'.
    apply bind_Ok in Ew'. destruct Ew' as ([l x'] & EL & Q). injection Q as <-.
    rewrite (upd_split _ _ _ Ew) in E. apply IH in E.
    eapply st_cons; [exact Ew| | | | | | |reflexivity|exact E]; try reflexivity. exists x. cbn. split; [exact Es|exact EL].
Qed.
Lemma started_len use init ss ws g ws' g' : started P use init ss ws g ws' g' -> List.length ws' = List.length ws /\ map rec_of ws' = map rec_of ws.
Proof.
  intros H. induction H as [|s ss ws g w w' ws1 g1 ws2 g2 Hn _ _ _ _ Hs Hl -> _ [IH1 IH2]]; [split; reflexivity|].
  rewrite IH1, IH2. clear IH1 IH2. rewrite <- (upd_split _ _ _ Hn). split; [apply upd_length|].
  clear - Hn Hs Hl. revert Hn. generalize (step_par s). intros i. revert i. induction ws as [|a ws IH]; intros [|i] Hn; cbn in *; try discriminate.
  - injection Hn as ->. unfold rec_of at 1 2. rewrite Hs, Hl. reflexivity.
  - rewrite (IH i Hn). reflexivity.
Qed.

(** ** SetSampleSize *)
Lemma SetSampleSize_rec n w w' : Ok (SetSampleSize ([] : vec) w n) = Ok w' -> exists r, w' = with_rec w r.
Proof. intros E. injection E as <-. eexists (_, _). reflexivity. Qed.
Lemma resize_len T (l : list T) n d : List.length (resize l n d) = n.
Proof. unfold resize. rewrite app_length, firstn_length, repeat_length. lia. Qed.
Lemma size_tracked t n (ws ws' : list param) : on_tracked t (fun w => Ok (SetSampleSize [] w n)) ws = Ok ws' ->
  forall j w', tracks t j -> nth_error ws' j = Some w' -> List.length (w_samples w') = n /\ List.length (w_logposts w') = n.
Proof.
  assert (forall t (ws ws' : list param), on_tracked t (fun w => Ok (SetSampleSize [] w n)) ws = Ok ws' -> forall j w, nth_error ws j = Some w ->
     List.length (w_samples w) = n -> List.length (w_logposts w) = n ->
     forall w', nth_error ws' j = Some w' -> List.length (w_samples w') = n /\ List.length (w_logposts w') = n) as K.
  { clear. induction t as [|[l i] t IH]; intros ws ws' E j w Hw H1 H2 w' Hw'; cbn [on_tracked] in E.
    - injection E as <-. assert (w' = w) by congruence. subst w'. split; assumption.
    - apply bind_Ok in E. destruct E as (ws1 & E1 & E). unfold on_par in E1. apply bind_Ok in E1. destruct E1 as (wi & Ew & E1).
      cbn [bind] in E1. injection E1 as <-. apply vgetU_nth in Ew.
      destruct (Nat.eq_dec i j) as [->|Hne].
      + eapply (IH _ _ E j (SetSampleSize [] wi n)); [rewrite nth_error_upd, Nat.eqb_refl, ?Ew; reflexivity|apply resize_len|apply resize_len|exact Hw'].
      + eapply (IH _ _ E j w); [rewrite nth_error_upd; apply Nat.eqb_neq in Hne; rewrite Hne; exact Hw|assumption|assumption|exact Hw']. }
  revert ws; induction t as [|[l i] t IH]; intros ws E j w' Hj Hw'; [destruct Hj|]. cbn [on_tracked] in E.
  apply bind_Ok in E. destruct E as (ws1 & E1 & E). unfold on_par in E1. apply bind_Ok in E1. destruct E1 as (wi & Ew & E1).
  cbn [bind] in E1. injection E1 as <-. apply vgetU_nth in Ew. unfold tracks in Hj. cbn in Hj.
  destruct (in_dec Nat.eq_dec j (map snd t)) as [Hi|Hi]; [exact (IH _ E j w' Hi Hw')|]. destruct Hj as [->|Hj]; [|contradiction].
  eapply (K _ _ _ E j (SetSampleSize [] wi n)); [rewrite nth_error_upd, Nat.eqb_refl, ?Ew; reflexivity|apply resize_len|apply resize_len|exact Hw'].
Qed.

(** ** Sampler::Run *)
Theorem Run_records N burnin thin t init (y y' : sys) : Run P draw N burnin thin t init y = Ok y' ->
  exists y0, (exists use ws1, started P use init (y_steps y) ws1 (y_gen y) (y_pars y0) (y_gen y0) /\ map (@w_obj A X vec) ws1 = map (@w_obj A X vec) (y_pars y) /\
      map (@w_temp A X vec) ws1 = map (@w_temp A X vec) (y_pars y) /\ map (@w_track A X vec) ws1 = map (@w_track A X vec) (y_pars y) /\ map (@w_label A X vec) ws1 = map (@w_label A X vec) (y_pars y) /\
      (forall s0 w0, nth_error (y_steps y) 0 = Some s0 -> nth_error (y_pars y) (step_par s0) = Some w0 ->
         use = (List.length init =? List.length (w_value w0)))) /\
    y_steps y0 = y_steps y /\
    (exists yn, sweeps P draw (burnin + N * thin) y0 yn /\ agree yn y') /\
    forall j w, tracks t j -> nth_error (y_pars y') j = Some w ->
      List.length (w_samples w) = N /\ List.length (w_logposts w) = N /\
      forall i, i < N -> exists yi wi, sweeps P draw (burnin + (i + 1) * thin) y0 yi /\ nth_error (y_pars yi) j = Some wi /\
        nth_error (w_samples w) i = Some (w_value wi) /\ nth_error (w_logposts w) i = Some (w_logpost wi).
Proof.
  unfold Run. intros E. apply bind_Ok in E. destruct E as (ws1 & E1 & E). apply bind_Ok in E. destruct E as (s0 & Es0 & E).
  apply bind_Ok in E. destruct E as (w0 & Ew0 & E). apply bind_Ok in E. destruct E as ([ws2 g2] & E2 & E).
  apply bind_Ok in E. destruct E as (y3 & E3 & E).
  apply start_loop_started in E2. set (use := _ =? _) in E2.
  exists (mkSys ws2 (y_steps y) g2). split; [|split; [reflexivity|]].
  { exists use, ws1. cbn [y_pars y_gen]. split; [exact E2|].
    destruct (on_tracked_rec _ _ _ (fun w w' => @SetSampleSize_rec N w w') E1) as (rs & Hl & ->).
    assert (forall T (f : param -> T), (forall w r, f (with_rec w r) = f w) -> map f (zip (y_pars y) rs) = map f (y_pars y)) as Hz.
    { intros T f Hf. revert Hl. generalize (y_pars y). clear - Hf. intros ws. revert rs. unfold zip. induction ws as [|w ws IH]; intros [|r rs] Hl; try discriminate; [reflexivity|].
      cbn. rewrite Hf. f_equal. apply IH. cbn in Hl. lia. }
    split; [apply Hz; reflexivity|]. split; [apply Hz; reflexivity|]. split; [apply Hz; reflexivity|]. split; [apply Hz; reflexivity|].
    intros s1 w1 H1 H2. apply vgetU_nth in Es0. assert (s1 = s0) by congruence. subst s1.
    rewrite zip_vget in Ew0 by exact Hl. rewrite (vgetU_nth' _ _ H2) in Ew0. cbn [bind] in Ew0. injection Ew0 as <-. reflexivity. }
  pose proof (@Iterate_sweeps _ _ _ E3) as Hb. pose proof (@Iterate_len _ _ _ E3) as L3. cbn [y_pars] in L3.
  destruct (@sample_loop_spec _ _ _ _ _ _ _ (agree_refl y3) E) as [(yn & Hs & Ha) Hrec].
  split; [exists yn; split; [eapply sweeps_trans; eassumption|exact Ha]|].
  intros j w Hj Hw. destruct (started_len E2) as [L2 R2].
  pose proof (@sample_loop_len _ _ _ _ _ _ E) as L4.
  assert (j < List.length (y_pars y')) as Hjl by (apply nth_error_Some; congruence).
  destruct (nth_error (y_pars y3) j) as [w3|] eqn:Hw3; [|apply nth_error_None in Hw3; lia].
  destruct (nth_error ws1 j) as [w1|] eqn:Hw1; [|apply nth_error_None in Hw1; lia].
  destruct (Hrec j w3 w Hj Hw3 Hw) as (H1 & H2 & _ & H4).
  destruct (@size_tracked _ _ _ _ E1 _ _ Hj Hw1) as [Hn1 Hn2].
  assert (rec_of w3 = rec_of w1) as Er.
  { pose proof (@Iterate_keeps _ _ _ E3) as Hk. cbn [y_pars] in Hk. rewrite R2 in Hk.
    apply (f_equal (fun l => nth_error l j)) in Hk. rewrite !nth_error_map, Hw3, Hw1 in Hk. cbn in Hk. injection Hk as Hk1 Hk2. unfold rec_of; congruence. }
  injection Er as Er1 Er2.
  split; [rewrite H1, Er1; exact Hn1|]. split; [rewrite H2, Er2; exact Hn2|].
  intros i Hi. destruct (H4 i Hi) as (yi & wi & Hsi & Hwi & Hv & Hlp). exists yi, wi.
  split; [eapply sweeps_trans; eassumption|]. split; [exact Hwi|]. cbn in Hv, Hlp. split; assumption.
Qed.
End Eng.
