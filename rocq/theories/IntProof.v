(** The int counters of a run stay below the number of passes: the runs with ints and with natural numbers agree. *)
From Coq Require Import List Arith ZArith Bool String Lia.
From Verif Require Import Arith Res ListLemmas KFModel KFpModel CarpackModel EngineModel StartModel IntModel.
Import ListNotations.

Set Implicit Arguments.

Section Rel.
Variables T U : Type.
(** the same outcome, with related values *)
Definition rel (Q : T -> U -> Prop) (a : res T) (b : res U) : Prop :=
  match a, b with
  | Ok x, Ok y => Q x y
  | Throw e, Throw e' => e = e'
  | UB, UB => True
  | Diverge, Diverge => True
  | _, _ => False
  end.
End Rel.
Lemma rel_bind {T U T' U'} (Q : T -> U -> Prop) (Q' : T' -> U' -> Prop) a b f g : rel Q a b ->
  (forall x y, a = Ok x -> b = Ok y -> Q x y -> rel Q' (f x) (g y)) -> rel Q' (bind a f) (bind b g).
Proof. destruct a, b; cbn; intros H K; try contradiction; try exact H; try exact I. apply K; auto. Qed.
Lemma rel_same {T U U'} (Q : U -> U' -> Prop) (a : res T) f g :
  (forall x, a = Ok x -> rel Q (f x) (g x)) -> rel Q (bind a f) (bind a g).
Proof. destruct a; cbn; intros K; try exact I; [apply K|]; reflexivity. Qed.
Lemma rel_eq {T} (a b : res T) : rel eq a b -> a = b.
Proof. destruct a, b; cbn; intros H; try contradiction; subst; reflexivity. Qed.
Lemma rel_weak {T U} (Q Q' : T -> U -> Prop) a b : rel Q a b -> (forall x y, Q x y -> Q' x y) -> rel Q' a b.
Proof. destruct a, b; cbn; auto. Qed.

Lemma bind_assoc {T U V} (a : res T) (f : T -> res U) (g : U -> res V) : bind (bind a f) g = bind a (fun x => bind (f x) g).
Proof. destruct a; reflexivity. Qed.

Section Ints.
Variable A : Arith.
Variable R : rng A.
Local Notation F := (F A).
Local Notation vec := (list F).
Local Notation gen := (gen R).
Section Steps.
Variable X : Type.
Variable P : methodsP R X vec.
Variable draw : F -> gen -> F * gen.
Local Notation param := (param A X vec).
Local Notation sys := (sys R X).

Definition below (k : nat) : Prop := (Z.of_nat k <= int_max)%Z.
Lemma incr_below n k : n < k -> below k -> incr n = Ok (S n).
Proof. unfold below, incr. intros H K. destruct (Z.ltb_spec (Z.of_nat n) int_max); [reflexivity|lia]. Qed.

(** after at most k passes *)
Definition cnt (k : nat) (s s' : step A) : Prop :=
  match s, s' with
  | SRam i r, SRam i' r' => i = i' /\ r = r' /\ r_niter r <= k /\ r_naccept r <= k
  | SExch i e, SExch i' e' => i = i' /\ e_niter e <= k /\ e_naccept e <= k
  | _, _ => False
  end.
Lemma cnt_mono k k' s s' : k <= k' -> cnt k s s' -> cnt k' s s'.
Proof. destruct s, s'; cbn; intuition lia. Qed.

Lemma ram_step_cnt k r w g : r_niter r < k -> r_naccept r < k -> below k ->
  rel (fun a b => a = b /\ r_niter (fst (fst a)) <= k /\ r_naccept (fst (fst a)) <= k) (ram_step_int P draw r w g) (ram_step P draw r w g).
Proof.
  intros Hi Ha Hk. unfold ram_step_int, ram_step. destruct (draws _ _ g) as [unit g1].
  apply rel_same. intros scaled _. apply rel_same. intros new _.
  eapply rel_bind with (Q := fun a b => a = b /\ r_niter (snd (fst (fst a))) < k /\ r_naccept (snd (fst (fst a))) <= k).
  - unfold ram_accept_int, ram_accept. apply rel_same. intros [l w1] _. cbv zeta. destruct (negb _); [cbn; repeat split; lia|].
    destruct (runiform _ _ _) as [u g2]. destruct (flt A u _); [|cbn; repeat split; lia].
    rewrite incr_below with (k := k) by assumption. cbn. repeat split; lia.
  - intros [[[acc r1] w1] g2] b _ _ (<- & K1 & K2). cbn [fst snd] in K1, K2. apply rel_same. intros w2 _. apply rel_same. intros r2 E2.
    assert (r_niter r2 = r_niter r1 /\ r_naccept r2 = r_naccept r1) as [N1 N2].
    { unfold ram_adapt in E2. destruct (_ && _)%bool; [|injection E2 as <-; split; reflexivity].
      destruct (CholUpdateR1 _ _ _) as [[L v]|e| |]; cbn in E2; try discriminate. injection E2 as <-. split; reflexivity. }
    rewrite incr_below with (k := k) by (assumption || lia). cbn. repeat split; lia.
Qed.
Lemma exch_step_cnt k e e' w o g : e_niter e < k -> e_naccept e < k -> below k ->
  rel (fun a b => snd (fst (fst a)) = snd (fst (fst b)) /\ snd (fst a) = snd (fst b) /\ snd a = snd b /\
       e_niter (fst (fst (fst a))) <= k /\ e_naccept (fst (fst (fst a))) <= k)
    (exch_step_int P e w o g) (exch_step P e' w o g).
Proof.
  intros Hi Ha Hk. unfold exch_step_int, exch_step. destruct (runiform _ _ _) as [u g2]. cbv zeta.
  eapply rel_bind with (Q := fun a b => fst a = fst b /\ snd a <= k).
  - destruct (flt A u _); [|cbn; split; [reflexivity|lia]]. apply rel_same. intros w1 _. apply rel_same. intros o1 _.
    rewrite incr_below with (k := k) by assumption. cbn. split; [reflexivity|lia].
  - intros [[w' o'] na] [[w2 o2] na2] _ _ [[= <- <-] K]. cbn [snd] in K. rewrite incr_below with (k := k) by assumption. cbn.
    match goal with |- context [if ?c then _ else _] => destruct c end; match goal with |- context [if ?c then _ else _] => destruct c | _ => idtac end; cbn; repeat split; lia.
Qed.
Lemma do_step_cnt k s s' ws g : cnt k s s' -> below (S k) ->
  rel (fun a b => cnt (S k) (fst (fst a)) (fst (fst b)) /\ snd (fst a) = snd (fst b) /\ snd a = snd b) (do_step_int P draw s ws g) (do_step P draw s' ws g).
Proof.
  intros H Hk. destruct s as [i r|i e], s' as [i' r'|i' e']; cbn in H; try contradiction.
  - destruct H as (<- & <- & Hn & Ha). cbn [do_step_int do_step]. apply rel_same. intros w _.
    eapply rel_bind; [apply (@ram_step_cnt (S k)); (lia || assumption)|]. intros [[r1 w1] g1] b _ _ (<- & K1 & K2). cbn in *. repeat split; assumption.
  - destruct H as (<- & Hn & Ha). cbn [do_step_int do_step]. destruct i as [|j]; [exact I|]. apply rel_same. intros w _. apply rel_same. intros o _.
    eapply rel_bind; [apply (@exch_step_cnt (S k)); (lia || assumption)|]. intros [[[e1 w1] o1] g1] [[[e2 w2] o2] g2] _ _ (K1 & K2 & K3 & K4 & K5). cbn in *.
    subst. repeat split; assumption.
Qed.
Lemma sweep_steps_cnt k ss : forall ss' ws g, Forall2 (cnt k) ss ss' -> below (S k) ->
  rel (fun a b => Forall2 (cnt (S k)) (fst (fst a)) (fst (fst b)) /\ snd (fst a) = snd (fst b) /\ snd a = snd b)
    (sweep_steps_int P draw ss ws g) (sweep_steps P draw ss' ws g).
Proof.
  induction ss as [|s ss IH]; intros ss' ws g H Hk; inversion H; subst; cbn [sweep_steps_int sweep_steps].
  - cbn. repeat split. constructor.
  - eapply rel_bind; [apply do_step_cnt; eassumption|]. intros [[s1 ws1] g1] [[s2 ws2] g2] _ _ (K1 & K2 & K3). cbn in K1, K2, K3. subst ws2 g2.
    eapply rel_bind; [apply IH; assumption|]. intros [[r1 ws3] g3] [[r2 ws4] g4] _ _ (L1 & L2 & L3). cbn in *. subst. repeat split. constructor; assumption.
Qed.
Definition cnty (k : nat) (y z : sys) : Prop := y_pars y = y_pars z /\ y_gen y = y_gen z /\ Forall2 (cnt k) (y_steps y) (y_steps z).
Lemma iterate_cnt n : forall k y z, cnty k y z -> below (k + n) -> rel (cnty (k + n)) (iterate_int P draw n y) (Iterate P draw n z).
Proof.
  induction n as [|n IH]; intros k y z (H1 & H2 & H3) Hk.
  - cbn. rewrite Nat.add_0_r. repeat split; assumption.
  - cbn [iterate_int Iterate]. unfold sweep. rewrite bind_assoc, <- H1, <- H2.
    eapply rel_bind; [apply sweep_steps_cnt; [exact H3|unfold below in *; lia]|].
    intros [[s1 ws1] g1] [[s2 ws2] g2] _ _ (K1 & K2 & K3). cbn in K1, K2, K3. subst ws2 g2. cbn [bind].
    replace (k + S n) with (S k + n) in * by lia. apply IH; [|assumption]. repeat split. exact K1.
Qed.
Lemma SaveValues_cnt k t cur y z : cnty k y z -> rel (cnty k) (SaveValues (R := R) t cur y) (SaveValues (R := R) t cur z).
Proof.
  intros (H1 & H2 & H3). unfold SaveValues. rewrite <- H1, <- H2. apply rel_same. intros ws _. cbn. repeat split; assumption.
Qed.
Lemma sample_loop_cnt N thin t : forall cur k y z, cnty k y z -> below (k + N * Z.to_nat thin) ->
  rel (fun y z => y_pars y = y_pars z /\ y_gen y = y_gen z) (sample_loop_int P draw N cur thin t y) (sample_loop P draw N cur (Z.to_nat thin) t z).
Proof.
  induction N as [|N IH]; intros cur k y z H Hk; cbn [sample_loop_int sample_loop].
  - cbn. split; apply H.
  - unfold Iterate_int. eapply rel_bind; [apply iterate_cnt; [exact H|unfold below in *; cbn in Hk; lia]|]. intros y1 z1 _ _ H1.
    eapply rel_bind; [apply SaveValues_cnt; exact H1|]. intros y2 z2 _ _ H2. eapply IH; [exact H2|]. unfold below in *. cbn in Hk. lia.
Qed.
Lemma on_tracked_size t N : forall ws, (0 <= N)%Z ->
  on_tracked t (SetSampleSize_int (A := A) (X := X) N) ws = on_tracked t (fun w => Ok (SetSampleSize [] w (Z.to_nat N))) ws.
Proof.
  intros ws HN. revert ws. induction t as [|[l i] t IH]; intro ws; [reflexivity|]. cbn [on_tracked]. unfold on_par, SetSampleSize_int at 1.
  destruct (Z.ltb_spec N 0); [lia|]. destruct (vgetU ws i); cbn [bind]; [apply IH|reflexivity..].
Qed.
Lemma start_loop_par ss use init : forall ss' ws g, map (@step_par A) ss = map (@step_par A) ss' ->
  start_loop P ss use init ws g = start_loop P ss' use init ws g.
Proof.
  induction ss as [|s ss IH]; intros [|s' ss'] ws g H; try discriminate; [reflexivity|]. cbn in H. injection H as H0 H. cbn [start_loop]. rewrite H0.
  destruct (vgetU ws (step_par s')) as [w|e| |]; cbn [bind]; try reflexivity.
  destruct (if use then _ else _) as [[[v x] g1]|e| |]; cbn [bind]; try reflexivity.
  destruct (Save P _ _) as [w'|e| |]; cbn [bind]; try reflexivity. apply IH. exact H.
Qed.
Lemma cnt_par k ss ss' : Forall2 (cnt k) ss ss' -> map (@step_par A) ss = map (@step_par A) ss'.
Proof. induction 1 as [|s s' ss ss' H _ IH]; cbn; [reflexivity|]. f_equal; [|exact IH]. destruct s, s'; cbn in *; intuition. Qed.

(** a run with ints *)
Lemma Run_int_eq N burnin thin t init y z : cnty 0 y z -> (0 <= N)%Z -> below (Z.to_nat burnin + Z.to_nat N * Z.to_nat thin) ->
  rel (fun y z => y_pars y = y_pars z /\ y_gen y = y_gen z)
    (Run_int P draw N burnin thin t init y) (Run P draw (Z.to_nat N) (Z.to_nat burnin) (Z.to_nat thin) t init z).
Proof.
  intros (H1 & H2 & H3) HN Hk. unfold Run_int, Run. rewrite on_tracked_size by exact HN. rewrite <- H1, <- H2. apply rel_same. intros ws1 _.
  pose proof (cnt_par H3) as Hp.
  eapply rel_bind with (Q := fun s s' => step_par s = step_par s').
  - unfold vgetU. destruct (y_steps y) as [|s ss], (y_steps z) as [|s' ss']; try discriminate; cbn; [exact I|]. cbn in Hp. injection Hp as Hp _. exact Hp.
  - intros s s' _ _ Hs. rewrite Hs. apply rel_same. intros w0 _. cbv zeta. rewrite (start_loop_par _ _ _ _ _ _ Hp). apply rel_same. intros [ws2 g2] _.
    unfold Iterate_int. eapply rel_bind; [apply iterate_cnt with (k := 0); [repeat split; exact H3|unfold below in *; lia]|].
    intros y3 z3 _ _ H4. eapply sample_loop_cnt; [exact H4|exact Hk].
Qed.
(** a negative number of samples *)
Lemma Run_int_neg N burnin thin t init y i l r w : (N < 0)%Z -> t = (l, i) :: r -> nth_error (y_pars y) i = Some w ->
  Run_int P draw N burnin thin t init y = Throw Elogic.
Proof.
  intros HN -> Hw. unfold Run_int. cbn [on_tracked]. unfold on_par. unfold vgetU. rewrite Hw. cbn [bind]. unfold SetSampleSize_int.
  destruct (Z.ltb_spec N 0); [reflexivity|lia].
Qed.
Lemma AddSteps_cnt k ws l : forall l' ss ss' t, Forall2 (cnt k) l l' -> Forall2 (cnt k) ss ss' ->
  rel (fun a b => Forall2 (cnt k) (fst a) (fst b) /\ snd a = snd b) (AddSteps (X := X) (ss, t) ws l) (AddSteps (X := X) (ss', t) ws l').
Proof.
  induction l as [|s l IH]; intros l' ss ss' t Hl Hs; inversion Hl; subst.
  - cbn. split; [exact Hs|reflexivity].
  - cbn [AddSteps AddStep]. rewrite ?bind_assoc. match goal with H : cnt k s ?y |- _ => pose proof H as Hy; assert (step_par s = step_par y) as Q by (destruct s, y; cbn in H; intuition) end.
    rewrite Q. apply rel_same. intros w _. cbn [bind]. apply IH; [assumption|]. apply Forall2_app; [exact Hs|]. constructor; [exact Hy|constructor].
Qed.
End Steps.
End Ints.

Section Drivers.
Variable A : Arith.
Variable R : rng A.
Local Notation F := (F A).
Local Notation vec := (list F).

Lemma Zneg_nat z : (z < 0)%Z -> Z.to_nat z = 0.
Proof. destruct z; lia || reflexivity. Qed.
Lemma passes_below N burnin thin : (0 <= N)%Z -> is_int burnin = true -> is_int (thin * N) = true -> is_int (burnin + thin * N) = true ->
  below (Z.to_nat burnin + Z.to_nat N * Z.to_nat thin).
Proof.
  unfold is_int, below, int_min. intros HN Hb Hp Hs. apply andb_true_iff in Hb, Hp, Hs. destruct Hb as [_ Hb], Hp as [_ Hp], Hs as [_ Hs].
  apply Z.leb_le in Hb, Hp, Hs. rewrite Nat2Z.inj_add, Nat2Z.inj_mul, (Z2Nat.id N) by exact HN.
  assert (0 <= int_max)%Z by (unfold int_max; lia).
  destruct (Z.le_gt_cases 0 burnin) as [B|B], (Z.le_gt_cases 0 thin) as [T|T];
  rewrite ?(Z2Nat.id burnin B), ?(Z2Nat.id thin T); rewrite ?(Zneg_nat burnin), ?(Zneg_nat thin) by lia; lia.
Qed.
Lemma hot_cnt n (r : ram A) e e' : r_niter r = 0 -> r_naccept r = 0 -> e_niter e = 0 -> e_naccept e = 0 -> Forall2 (cnt (A := A) 0) (hot_steps n r e) (hot_steps n r e').
Proof.
  intros H1 H2 H3 H4. induction n as [|n IH]; cbn [hot_steps]; [constructor|].
  constructor; [cbn; repeat split; lia|]. constructor; [cbn; repeat split; lia|exact IH].
Qed.
Variable chol : mat A -> option (mat A).
Lemma ram_new_counters c t m a (r : ram A) : ram_new chol c t m a = Ok r -> r_niter r = 0 /\ r_naccept r = 0.
Proof. unfold ram_new. destruct (chol c); intros H; inversion H; split; reflexivity. Qed.

Lemma int_val_ok z : is_int z = true -> int_val z = Ok z.
Proof. unfold int_val. intros ->. reflexivity. Qed.

Lemma run_carma_int_eq {X} (M : methodsP R (base A X) vec) mk npar label N burnin y nw thin init v0 l0 a0 g :
  (0 <= N)%Z -> (0 <= nw)%Z -> is_int burnin = true -> is_int (thin * N) = true -> is_int (burnin + thin * N) = true ->
  run_carma_int chol M mk npar label N burnin y nw thin init v0 l0 a0 g
  = run_carma chol M mk npar label (Z.to_nat N) (Z.to_nat burnin) y (Z.to_nat nw) (Z.to_nat thin) init v0 l0 a0 g.
Proof.
  intros HN Hw Hb Hp Hs. unfold run_carma_int, run_carma. destruct (Z.ltb_spec nw 0); [lia|]. rewrite (int_val_ok _ Hp). cbn [bind]. rewrite (int_val_ok _ Hs).
  apply rel_eq. apply rel_same. intros ws _. cbn [bind]. cbv zeta. apply rel_same. intros w0 _. apply rel_same. intros r Er.
  destruct (ram_new_counters _ _ _ _ Er) as [R1 R2].
  eapply rel_bind; [apply AddSteps_cnt with (k := 0); [apply hot_cnt; (assumption || reflexivity)|constructor]|].
  intros [ss t] [ss' t'] _ _ [K1 K2]. cbn in K1, K2. subst t'.
  eapply rel_bind; [apply AddSteps_cnt with (k := 0); [constructor; [cbn; repeat split; lia|constructor]|exact K1]|].
  intros [s1 t1] [s2 t2] _ _ [L1 L2]. cbn in L1, L2. subst t2.
  eapply rel_bind; [apply Run_int_eq; [repeat split; exact L1|exact HN|apply passes_below; assumption]|].
  intros y1 z1 _ _ [E1 E2]. rewrite E1, E2. apply rel_same. intros w' _. reflexivity.
Qed.

Variable dsort : vec -> option vec.
Variable solve : list (list (Cx.cx A)) -> list (Cx.cx A) -> option (list (Cx.cx A)).
Variable si : vec -> option (list nat).
Variable vsort : vec -> option vec.
Lemma RunCarma_int_eq fuel N burnin t y e p q nw z thin init raw v0 l0 a0 g :
  (0 <= N)%Z -> (0 <= nw)%Z -> is_int burnin = true -> is_int (thin * N) = true -> is_int (burnin + thin * N) = true ->
  RunCarmaSampler_int (R := R) solve si chol dsort fuel N burnin t y e p q nw z thin init raw v0 l0 a0 g
  = RunCarmaSampler (R := R) dsort solve si chol fuel (Z.to_nat N) (Z.to_nat burnin) t y e p q (Z.to_nat nw) z (Z.to_nat thin) init raw v0 l0 a0 g.
Proof.
  intros. unfold RunCarmaSampler_int, RunCarmaSampler. destruct (p <? 2); [reflexivity|]. destruct z; [|destruct (q =? 0)]; apply run_carma_int_eq; assumption.
Qed.
Lemma RunCar1_int_eq N burnin t y e thin init raw v0 l0 a0 g :
  (0 <= N)%Z -> is_int burnin = true -> is_int (thin * N) = true -> is_int (burnin + thin * N) = true ->
  RunCar1Sampler_int (R := R) vsort si chol N burnin t y e thin init raw v0 l0 a0 g
  = RunCar1Sampler (R := R) vsort si chol (Z.to_nat N) (Z.to_nat burnin) t y e (Z.to_nat thin) init raw v0 l0 a0 g.
Proof.
  intros HN Hb Hp Hs. unfold RunCar1Sampler_int, RunCar1Sampler. rewrite (int_val_ok _ Hp). cbn [bind]. rewrite (int_val_ok _ Hs). cbn [bind].
  apply rel_eq. apply rel_same. intros b _. apply rel_same. intros b1 _. cbv zeta. apply rel_same. intros r Er.
  destruct (ram_new_counters _ _ _ _ Er) as [R1 R2]. apply rel_same. intros [ss tr] Es.
  eapply rel_bind; [apply Run_int_eq; [repeat split|exact HN|apply passes_below; assumption]|].
  - cbn in Es. injection Es as <- _. constructor; [cbn; repeat split; lia|constructor].
  - intros y1 z1 _ _ [E1 E2]. rewrite E1, E2. apply rel_same. intros w' _. reflexivity.
Qed.
(** a product or a sum that does not fit *)
Lemma run_carma_int_over {X} (M : methodsP R (base A X) vec) mk npar label N burnin y nw thin init v0 l0 a0 g ws :
  (0 <= nw)%Z -> is_int (thin * N) = false \/ is_int (burnin + thin * N) = false ->
  mk_walkers mk (fmul A (fofZ A 10) (fsqrt A (pop_var A y))) v0 l0 label (temp_ladder A (Z.to_nat nw)) = Ok ws ->
  run_carma_int chol M mk npar label N burnin y nw thin init v0 l0 a0 g = UB.
Proof.
  intros Hw H E. unfold run_carma_int. destruct (Z.ltb_spec nw 0); [lia|]. rewrite E. cbn [bind]. unfold int_val at 1.
  destruct (is_int (thin * N)) eqn:Q; [|reflexivity]. cbn [bind]. destruct H as [H|H]; [discriminate|]. unfold int_val. rewrite H. reflexivity.
Qed.
Lemma run_carma_walkers {X} (M : methodsP R (base A X) vec) mk npar label N burnin y nw thin init v0 l0 a0 g r :
  run_carma chol M mk npar label N burnin y nw thin init v0 l0 a0 g = Ok r -> exists ws w L,
  mk_walkers mk (fmul A (fofZ A 10) (fsqrt A (pop_var A y))) v0 l0 label (temp_ladder A nw) = Ok ws /\ nth_error ws 0 = Some w /\
  chol (prop_covar A npar y) = Some L.
Proof.
  unfold run_carma. destruct (mk_walkers _ _ _ _ _ _) as [ws|e| |]; cbn [bind]; try discriminate. destruct ws as [|w ws]; [discriminate|].
  cbn [vgetU nth_error bind]. unfold ram_new. destruct (chol _) as [L|]; [|discriminate]. intros _. exists (w :: ws), w, L. repeat split.
Qed.
Lemma mk_walkers_track {X} (mk : res (base A X)) sd v0 l0 label temps : forall ws, mk_walkers mk sd v0 l0 label temps = Ok ws ->
  List.length ws = List.length temps /\ Forall (fun w => w_track w = false) ws.
Proof.
  induction temps as [|T temps IH]; cbn [mk_walkers]; intros ws E; [injection E as <-; split; constructor|].
  destruct mk as [b|e| |]; cbn [bind] in E; try discriminate. destruct (SetPrior b sd) as [b1|e| |]; cbn [bind] in E; try discriminate.
  destruct (mk_walkers _ _ _ _ _ temps) as [ws'|e| |]; cbn [bind] in E; try discriminate. injection E as <-. destruct (IH ws' eq_refl) as [H1 H2].
  split; [cbn; f_equal; exact H1|]. constructor; [reflexivity|exact H2].
Qed.
Lemma AddSteps_untracked {X} (ws : list (param A (base A X) vec)) l : Forall (fun w => w_track w = false) ws ->
  forall ss, Forall (fun s => step_par s < List.length ws) l -> exists ss', AddSteps (ss, []) ws l = Ok (ss', []).
Proof.
  intros Hw. induction l as [|s l IH]; intros ss Hl; [exists ss; reflexivity|]. inversion Hl as [|? ? H1 H2]; subst. cbn [AddSteps AddStep].
  unfold vgetU. destruct (nth_error ws (step_par s)) as [w|] eqn:E; [|apply nth_error_None in E; lia]. cbn [bind].
  rewrite (proj1 (Forall_forall _ _) Hw w (nth_error_In _ _ E)). apply IH. exact H2.
Qed.
Lemma hot_par n (r : ram A) e : Forall (fun s => step_par s < S n) (hot_steps n r e).
Proof.
  induction n as [|n IH]; cbn [hot_steps]; [constructor|]. constructor; [cbn; lia|]. constructor; [cbn; lia|]. eapply Forall_impl; [|exact IH]. cbn. intros; lia.
Qed.
Lemma run_carma_int_neg {X} (M : methodsP R (base A X) vec) mk npar label N burnin y nw thin init v0 l0 a0 g n b k r :
  (N < 0)%Z -> (0 <= nw)%Z -> is_int (thin * N) = true -> is_int (burnin + thin * N) = true ->
  run_carma chol M mk npar label n b y (Z.to_nat nw) k init v0 l0 a0 g = Ok r ->
  run_carma_int chol M mk npar label N burnin y nw thin init v0 l0 a0 g = Throw Elogic.
Proof.
  intros HN Hw Hp Hs E. destruct (run_carma_walkers _ _ _ _ _ _ _ _ _ _ _ _ _ _ E) as (ws & w & L & Ew & E0 & EL).
  unfold run_carma_int. destruct (Z.ltb_spec nw 0); [lia|]. rewrite Ew. cbn [bind]. rewrite (int_val_ok _ Hp). cbn [bind]. rewrite (int_val_ok _ Hs). cbn [bind]. cbv zeta.
  unfold vgetU at 1. rewrite E0. cbn [bind]. unfold ram_new. rewrite EL. cbn [bind].
  destruct (mk_walkers_track _ _ _ _ _ _ Ew) as [Hl Ht]. destruct ws as [|w' ws]; [discriminate|]. injection E0 as ->.
  assert (Ln : List.length (w :: ws) = Z.to_nat nw) by (rewrite Hl; unfold temp_ladder, linspace, Cx.vbuild; rewrite !map_length; apply seq_length).
  match goal with |- context [AddSteps ([], []) (w :: ws) ?l] => destruct (@AddSteps_untracked X (w :: ws) l Ht []) as [ss Es] end.
  { rewrite Ln. cbn [List.length] in Ln. eapply Forall_impl; [|apply hot_par]. cbn. clear - Ln. intros s Hs. lia. }
  rewrite Es. cbn [bind AddSteps AddStep upd vgetU nth_error step_par SetTracking w_track w_label track_insert].
  erewrite Run_int_neg with (w := SetTracking w true); [reflexivity|exact HN|reflexivity|reflexivity].
Qed.
Lemma RunCarma_int_neg fuel N burnin t y e p q nw z thin init raw v0 l0 a0 g n b k r :
  (N < 0)%Z -> (0 <= nw)%Z -> is_int (thin * N) = true -> is_int (burnin + thin * N) = true ->
  RunCarmaSampler (R := R) dsort solve si chol fuel n b t y e p q (Z.to_nat nw) z k init raw v0 l0 a0 g = Ok r ->
  RunCarmaSampler_int (R := R) solve si chol dsort fuel N burnin t y e p q nw z thin init raw v0 l0 a0 g = Throw Elogic.
Proof.
  intros HN Hw Hp Hs. unfold RunCarmaSampler_int, RunCarmaSampler. destruct (p <? 2); [discriminate|].
  destruct z; [|destruct (q =? 0)]; intro E; eapply run_carma_int_neg; eassumption.
Qed.
Lemma RunCarma_int_over fuel N burnin t y e p q nw z thin init raw v0 l0 a0 g n b k r :
  (0 <= nw)%Z -> is_int (thin * N) = false \/ is_int (burnin + thin * N) = false ->
  RunCarmaSampler (R := R) dsort solve si chol fuel n b t y e p q (Z.to_nat nw) z k init raw v0 l0 a0 g = Ok r ->
  RunCarmaSampler_int (R := R) solve si chol dsort fuel N burnin t y e p q nw z thin init raw v0 l0 a0 g = UB.
Proof.
  intros Hw H. unfold RunCarmaSampler_int, RunCarmaSampler. destruct (p <? 2); [discriminate|].
  destruct z; [|destruct (q =? 0)]; intro E; destruct (run_carma_walkers _ _ _ _ _ _ _ _ _ _ _ _ _ _ E) as (ws & w & L & Ew & _); eapply run_carma_int_over; eassumption.
Qed.
Lemma RunCar1_int_neg N burnin t y e thin init raw v0 l0 a0 g n b k r :
  (N < 0)%Z -> is_int (thin * N) = true -> is_int (burnin + thin * N) = true ->
  RunCar1Sampler (R := R) vsort si chol n b t y e k init raw v0 l0 a0 g = Ok r ->
  RunCar1Sampler_int (R := R) vsort si chol N burnin t y e thin init raw v0 l0 a0 g = Throw Elogic.
Proof.
  intros HN Hp Hs. unfold RunCar1Sampler_int, RunCar1Sampler. rewrite (int_val_ok _ Hp). cbn [bind]. rewrite (int_val_ok _ Hs). cbn [bind].
  destruct (car1_new _ _ _ _ _) as [b0|x| |]; cbn [bind]; try discriminate. destruct (SetPrior b0 _) as [b1|x| |]; cbn [bind]; try discriminate.
  cbv zeta. unfold ram_new. destruct (chol _) as [L|]; [|discriminate]. intros _.
  cbn [bind AddSteps AddStep vgetU nth_error step_par new_param w_track w_label track_insert List.app].
  erewrite Run_int_neg; [reflexivity|exact HN|reflexivity|reflexivity].
Qed.
Lemma RunCar1_int_over N burnin t y e thin init raw v0 l0 a0 g : is_int (thin * N) = false \/ is_int (burnin + thin * N) = false ->
  RunCar1Sampler_int (R := R) vsort si chol N burnin t y e thin init raw v0 l0 a0 g = UB.
Proof.
  intros H. unfold RunCar1Sampler_int, int_val at 1. destruct (is_int (thin * N)) eqn:Q; [|reflexivity]. cbn [bind].
  destruct H as [H|H]; [discriminate|]. unfold int_val. rewrite H. reflexivity.
Qed.
End Drivers.
