(** C101: which orders p, q a model accepts. *)
From Coq Require Import Reals List Arith ZArith Lra Lia Bool.
From Verif Require Import Arith Res ListLemmas KFModel Spec Emb History InitProof DupTimes.
From Verif Require Import Cx KFpModel CarpackModel EngineModel StartModel PyModel PyData.
From Verif Require CarpackRefute.
From Verif Require Import PropsPy.
Import ListNotations.
Local Notation length := List.length.

(** *** The moving average coefficients *)
Lemma fill_bound (A : Arith) (poly : list (F A)) (q : nat) : forall k a (ma ma' : list (F A)),
  for_ a k (fun i ma => c <- vget poly (q - i) ;; vset ma i c) ma = Ok ma' -> (a <= length ma)%nat -> (a + k <= length ma)%nat.
Proof.
  induction k as [|k IH]; intros a ma ma' H Ha; [lia|]. cbn [for_] in H.
  destruct (vget poly (q - a)) as [c|e| |]; cbn [bind] in H; try discriminate H.
  unfold vset in H. destruct (Nat.ltb_spec a (length ma)) as [L|L]; cbn [bind] in H; [|discriminate H].
  apply IH in H; rewrite upd_length in *; lia.
Qed.
Lemma ExtractMA_never (A : Arith) p q th ma : (p <= q)%nat -> ExtractMA_carma A p q th <> Ok ma.
Proof.
  intros Hq H. unfold ExtractMA_carma in H. destruct (quad_roots A th (3 + p) q) as [roots|e| |]; cbn [bind] in H; try discriminate H.
  destruct (vget (polycoefs roots) q) as [d|e| |]; cbn [bind] in H; try discriminate H.
  unfold ma_fill in H. apply fill_bound in H; [|lia]. unfold zeros in H. rewrite repeat_length in H. lia.
Qed.

Section Never.
Variables (A : Arith) (R0 : rng A).
Variables (dsort : list (F A) -> option (list (F A))) (solve : list (list (cx A)) -> list (cx A) -> option (list (cx A))).
Variables (si : list (F A) -> option (list nat)) (chol : mat A -> option (mat A)).
Variables (p q : nat).
Hypothesis Hq : (p <= q)%nat.

Lemma try_never extra early withma b g r : start_try (R := R0) dsort solve p (carma_cls solve p q) extra early withma b g <> Ok r.
Proof.
  intros H. unfold start_try in H. destruct (StartingAR dsort p b g) as [[la g1]|e| |]; cbn [bind] in H; try discriminate H.
  destruct (extra g1) as [ex g2]. cbn [carma_cls pcls v_MA] in H.
  destruct (ExtractMA_carma A p q (fofZ A 0 :: fofZ A 0 :: fofZ A 0 :: (la ++ ex)%list)) as [ma|e| |] eqn:E; cbn [bind] in H; try discriminate H.
  exact (ExtractMA_never A p q _ ma Hq E).
Qed.
Lemma while_never extra early withma fuel b g r : start_while (R := R0) dsort solve p (carma_cls solve p q) extra early withma fuel b g <> Ok r.
Proof.
  destruct fuel as [|k]; cbn [start_while]; [discriminate|].
  destruct (start_try dsort solve p (carma_cls solve p q) extra early withma b g) as [x|e| |] eqn:E; cbn [bind]; try discriminate.
  exfalso. exact (try_never _ _ _ _ _ _ E).
Qed.
Lemma set_never extra early withma len fuel b init g r : set_start (R := R0) dsort solve p (carma_cls solve p q) extra early withma len fuel b init g <> Ok r.
Proof.
  unfold set_start. destruct (negb (length init =? len)); [apply while_never|].
  destruct (LogDensity (carma_cls solve p q) b init) as [[lp b1]|e| |]; cbn [bind]; try discriminate.
  destruct (negb (ffin A lp)); [apply while_never|].
  destruct (vget init 0) as [t0|e| |]; cbn [bind]; try discriminate.
  destruct (vget init 1) as [sc|e| |]; cbn [bind]; try discriminate.
  destruct (vget init 2) as [mu|e| |]; cbn [bind]; try discriminate.
  destruct (ARRoots A p init) as [om|e| |]; cbn [bind]; try discriminate.
  cbn [carma_cls pcls v_MA]. destruct (ExtractMA_carma A p q init) as [ma|e| |] eqn:E; cbn [bind]; try discriminate.
  exfalso. exact (ExtractMA_never A p q _ ma Hq E).
Qed.
Lemma run_never npar mk label fuel N burnin y nw thin init v0 l0 a0 g r :
  run_carma (R := R0) chol (par_carma R0 dsort solve fuel p q) mk npar label N burnin y nw thin init v0 l0 a0 g <> Ok r.
Proof.
  intros H. unfold run_carma in H.
  destruct (mk_walkers mk _ v0 l0 label (temp_ladder A nw)) as [ws|e| |]; cbn [bind] in H; try discriminate H.
  destruct (vgetU ws 0) as [w0|e| |]; cbn [bind] in H; try discriminate H.
  destruct (ram_new chol _ _ burnin a0) as [rm|e| |]; cbn [bind] in H; try discriminate H.
  destruct (AddSteps _ ws _) as [st|e| |]; cbn [bind] in H; try discriminate H.
  destruct (AddSteps st _ _) as [[ss tr]|e| |]; cbn [bind] in H; try discriminate H.
  destruct (Run _ _ N burnin thin tr init _) as [s|e| |] eqn:ER; cbn [bind] in H; try discriminate H.
  clear H. unfold Run in ER. cbn [y_pars y_steps y_gen] in ER.
  destruct (on_tracked tr _ _) as [ws1|e| |]; cbn [bind] in ER; try discriminate ER.
  destruct ss as [|s0 ss]; [discriminate ER|]. cbn [vgetU nth_error bind] in ER.
  destruct (vgetU ws1 (step_par s0)) as [w1|e| |] eqn:E1; cbn [bind] in ER; try discriminate ER.
  cbn [start_loop] in ER. rewrite E1 in ER. cbn [bind] in ER.
  destruct (length init =? length (w_value w1)).
  - cbn [par_carma parp o_SetStart] in ER.
    destruct (set_start dsort solve p (carma_cls solve p q) (StartingMA q) true true (p + q + 3) fuel (w_obj w1) init g) as [x|e| |] eqn:E; cbn [bind] in ER; try discriminate ER.
    exact (set_never _ _ _ _ _ _ _ _ _ E).
  - cbn [par_carma parp o_Start] in ER.
    destruct (start_while dsort solve p (carma_cls solve p q) (StartingMA q) true true fuel (w_obj w1) g) as [x|e| |] eqn:E; cbn [bind] in ER; try discriminate ER.
    exact (while_never _ _ _ _ _ _ _ E).
Qed.
End Never.

(** *** C101 *)
(** C101 is false of the constructor: CarmaModel(time, y, ysig, p, q) accepts orders with p <= q ("Note that p > q"; the check at carma_pack.py L27-30 never fails). *)
Theorem C101_rejected_refuted : forall (argsort usort : list xr -> list nat), valid_argsort argsort -> valid_argsort usort ->
  exists (t y e : list R) p q m, (p <= q)%nat /\ length t = 2%nat /\ length y = 2%nat /\ length e = 2%nat /\
    CarmaModel_new AX argsort usort (map Fin t) (map Fin y) (map Fin e) p q = Ok m /\ c_p m = p /\ c_q m = q.
Proof.
  intros argsort usort Ha Hu.
  destruct (C04_carmamodel_data argsort usort [0%R; 1%R] (map Fin [0%R; 1%R]) (map Fin [1%R; 1%R]) 2 5 Ha Hu eq_refl eq_refl) as (t' & y' & e' & E & _).
  exists [0%R; 1%R], [0%R; 1%R], [1%R; 1%R], 2%nat, 5%nat, (mkCM AX (map Fin t') y' e' 2 5).
  split; [lia|]. do 3 (split; [reflexivity|]). split; [exact E|]. split; reflexivity.
Qed.
Print Assumptions C101_rejected_refuted.

(** C101: but no sample of such a CARMA model is ever returned: for 2 <= p <= q run_mcmc does not return, in any arithmetic, for any data and arguments. *)
Theorem C101_no_sample : forall (A : Arith) (R0 : rng A) dsort solve si chol fuel (m : cmodel A) N nburnin nt nthin init raw v0 l0 a0 (g : gen R0) r,
  (2 <= c_p m <= c_q m)%nat -> run_mcmcp (R := R0) dsort solve si chol fuel m N nburnin nt nthin init raw v0 l0 a0 g <> Ok r.
Proof.
  intros A R0 dsort solve si chol fuel m N nburnin nt nthin init raw v0 l0 a0 g r [Hp Hq]. unfold run_mcmcp, RunCarmaSampler.
  destruct (Nat.ltb_spec (c_p m) 2) as [L|L]; [lia|]. destruct (Nat.eqb_spec (c_q m) 0) as [E|E]; [lia|]. apply run_never. exact Hq.
Qed.
Print Assumptions C101_no_sample.

(** C101: and the log-density of such an object is never a number: outside the prior region it is -infinity, elsewhere the call raises. *)
Theorem C101_no_density : forall (A : Arith) solve p q (b b' : base A (kpx A)) th v, (p <= q)%nat ->
  LogDensity (carma_cls solve p q) b th = Ok (v, b') -> v = fneg A (finf A) /\ b' = b /\ CheckPriorBoundsp p (b_bounds b) th = Ok false.
Proof.
  intros A solve p q b b' th v Hq H. unfold LogDensity in H. cbn [carma_cls pcls v_Check v_AR v_MA v_Sig] in H.
  destruct (CheckPriorBoundsp p (b_bounds b) th) as [ok|e| |]; cbn [bind] in H; try discriminate H.
  destruct ok; cbn [negb] in H.
  - destruct (ARRoots A p th) as [om|e| |]; cbn [bind] in H; try discriminate H.
    destruct (ExtractMA_carma A p q th) as [ma|e| |] eqn:E; cbn [bind] in H; try discriminate H.
    exfalso. exact (ExtractMA_never A p q th ma Hq E).
  - injection H as <- <-. repeat split.
Qed.
Print Assumptions C101_no_density.

(** C101, p = 1: the moving average order is ignored: the run is that of a CAR(1) model whatever q is. *)
Theorem C101_car1_ignores_q : forall (A : Arith) (R0 : rng A) vsort si chol argsort usort (t y e : list (F A)) q q' m m' N nburnin nthin init raw v0 l0 a0 (g : gen R0),
  CarmaModel_new A argsort usort t y e 1 q = Ok m -> CarmaModel_new A argsort usort t y e 1 q' = Ok m' ->
  run_mcmc1 (R := R0) vsort si chol m N nburnin nthin init raw v0 l0 a0 g = run_mcmc1 (R := R0) vsort si chol m' N nburnin nthin init raw v0 l0 a0 g.
Proof.
  intros A R0 vsort si chol argsort usort t y e q q' m m' N nburnin nthin init raw v0 l0 a0 g H H'.
  unfold CarmaModel_new in *.
  destruct (velem t (argsort t)) as [ts|x| |]; cbn [bind] in H, H'; try discriminate H.
  destruct (np_unique A usort ts) as [[tu u]|x| |]; cbn [bind] in H, H'; try discriminate H.
  destruct (velem (argsort t) u) as [idx|x| |]; cbn [bind] in H, H'; try discriminate H.
  destruct (velem t idx) as [t1|x| |]; cbn [bind] in H, H'; try discriminate H.
  destruct (velem y idx) as [y1|x| |]; cbn [bind] in H, H'; try discriminate H.
  destruct (velem e idx) as [e1|x| |]; cbn [bind] in H, H'; try discriminate H.
  injection H as <-. injection H' as <-. reflexivity.
Qed.
Print Assumptions C101_car1_ignores_q.

(** *** The hypotheses are met *)
(** the model of C101_rejected_refuted has 2 <= p <= q; a point outside the prior region of an object with p = q = 2 has the log-density -infinity *)
Example ex_outside : forall solve (b : base AX (kpx AX)), b_bounds b = mkB AX (Fin 1%R) (Fin 5%R) (Fin 1%R) false ->
  LogDensity (carma_cls solve 2 2) b (map Fin [2; 1; 0; 0; 0; 0; 0]%R) = Ok (NInf, b).
Proof.
  intros solve b Hb. unfold LogDensity. cbn [carma_cls pcls v_Check]. rewrite Hb. unfold CheckPriorBoundsp. cbn [ignore_prior].
  destruct (CarpackRefute.roots_of 2 [2; 1; 0; 0; 0; 0; 0]%R ltac:(cbn; lia)) as (om & E & _).
  change (F AX) with xr in *. rewrite E. cbn [map vget nth_error bind]. unfold scalar_bad. cbn [max_stdev].
  replace (flt AX (Fin 1) (Fin 2)) with true by (cbn; destruct (Rlt_dec 1 2); [reflexivity|lra]).
  cbn [orb negb]. rewrite andb_false_r. cbn [andb bind negb]. reflexivity.
Qed.
