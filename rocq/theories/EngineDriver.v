(** RunCar1Sampler and RunCarmaSampler: what they run, and the run theorems for them. *)
From Coq Require Import List Arith ZArith Bool String Lia.
From Verif Require Import Arith Res ListLemmas KFModel History KF1X Cx KFpModel KFpProof CarpackModel LogLikProof KFpTop CarpackTop.
From Verif Require Import EngineModel StartModel EngineSpec EngineProof EngineInv EngineHist EngineClass.
Import ListNotations.

Set Implicit Arguments.
Unset Strict Implicit.

Section Drv.
Variable A : Arith.
Local Notation F := (F A).
Local Notation vec := (list F).
Variable R : rng A.
Variables vsort dsort : vec -> option vec.
Variable solve : list (list (cx A)) -> list (cx A) -> option (list (cx A)).
Variable si : vec -> option (list nat).
Variable chol : mat A -> option (mat A).

(** ** Specification vocabulary *)
(** [begun M init ws ss g y0]: y0 is the state of the chains [ws] with steps [ss] after the starting values *)
Definition begun {X} (M : methodsP R (base A X) vec) (init : vec) (ws : list (param A (base A X) vec)) (ss : list (step A)) (g : gen R)
  (y0 : sys R (base A X)) : Prop :=
  y_steps y0 = ss /\
  exists use ws1, started M use init ss ws1 g (y_pars y0) (y_gen y0) /\
    map (@w_obj _ _ _) ws1 = map (@w_obj _ _ _) ws /\ map (@w_temp _ _ _) ws1 = map (@w_temp _ _ _) ws /\
    (forall s0 w0, nth_error ss 0 = Some s0 -> nth_error ws (step_par s0) = Some w0 -> use = (List.length init =? List.length (w_value w0))).
(** [recorded M y0 burnin N thin w]: the record of [w] is N states of chain 0, the i-th after burnin + (i+1) thin sweeps
    from y0, and the current value of [w] is that after burnin + N thin sweeps *)
Definition recorded {X} (M : methodsP R (base A X) vec) (y0 : sys R (base A X)) (burnin N thin : nat)
  (w : param A (base A X) vec) (g' : gen R) : Prop :=
  List.length (w_samples w) = N /\ List.length (w_logposts w) = N /\
  (forall i, i < N -> exists yi wi, sweeps M (@student_draw A R) (burnin + (i + 1) * thin) y0 yi /\ nth_error (y_pars yi) 0 = Some wi /\
     nth_error (w_samples w) i = Some (w_value wi) /\ nth_error (w_logposts w) i = Some (w_logpost wi)) /\
  exists yn wn, sweeps M (@student_draw A R) (burnin + N * thin) y0 yn /\ nth_error (y_pars yn) 0 = Some wn /\
     w_value w = w_value wn /\ w_logpost w = w_logpost wn /\ w_temp w = w_temp wn /\ w_obj w = w_obj wn /\ g' = y_gen yn.
(** the class of the walkers that RunCarmaSampler creates, carmcmc.cpp L97-127 *)
Definition walker_cls (p q : nat) (z : bool) : cls A (kpx A) (list (cx A)) :=
  if z then zcar_cls solve p else if q =? 0 then carp_cls solve p else carma_cls solve p q.
Definition walker_par (fuel p q : nat) (z : bool) : methodsP R (base A (kpx A)) vec :=
  if z then par_zcar R dsort solve fuel p else if q =? 0 then par_carp R dsort solve fuel p else par_carma R dsort solve fuel p q.
Definition walker_new (raw : kfp A) (p : nat) (z : bool) (t y e : vec) : res (base A (kpx A)) :=
  if z then zcar_new si raw p t y e else carp_new si raw p t y e.
Definition walker_dim (p q : nat) (z : bool) : nat := if z then 3 + p else 3 + p + q.
(** no observation is dropped by the constructor of the filter (the times are distinct) *)
Definition all_kept (t : vec) : Prop := forall X (raw : kf A X) y e s, kf_new si raw t y e = Ok s -> List.length (k_time s) = List.length t.

(** ** Inversion of the drivers *)
Lemma AddSteps_untracked X (ws : list (param A (base A X) vec)) l : forall ss tr st,
  (forall i w, nth_error ws i = Some w -> w_track w = false) -> AddSteps (ss, tr) ws l = Ok st -> st = (ss ++ l, tr).
Proof.
  induction l as [|s l IH]; intros ss tr st H E; cbn [AddSteps] in E; [injection E as <-; rewrite app_nil_r; reflexivity|].
  apply bind_Ok in E. destruct E as (st1 & E1 & E). unfold AddStep in E1. apply bind_Ok in E1. destruct E1 as (w & Ew & E1).
  apply vgetU_nth in Ew. rewrite (H _ _ Ew) in E1. injection E1 as <-. rewrite (IH _ _ _ H E), <- app_assoc. reflexivity.
Qed.
Lemma mk_walkers_inv X (mk : res (base A X)) sd v0 l0 label temps : forall ws, mk_walkers mk sd v0 l0 label temps = Ok ws ->
  temps = [] /\ ws = [] \/ exists b b1, mk = Ok b /\ SetPrior b sd = Ok b1 /\ ws = map (fun T => new_param b1 v0 l0 T false label) temps.
Proof.
  induction temps as [|T temps IH]; intros ws E; cbn [mk_walkers] in E; [left; injection E as <-; split; reflexivity|].
  right. apply bind_Ok in E. destruct E as (b & Eb & E). apply bind_Ok in E. destruct E as (b1 & Eb1 & E).
  apply bind_Ok in E. destruct E as (ws' & Ew & E). injection E as <-. exists b, b1. split; [exact Eb|]. split; [exact Eb1|].
  cbn [map]. f_equal. destruct (IH _ Ew) as [[-> ->]|(b' & b1' & E1 & E2 & ->)]; [reflexivity|]. assert (b1' = b1) as -> by congruence. reflexivity.
Qed.
Lemma temp_ladder_len n : List.length (temp_ladder A n) = n.
Proof. unfold temp_ladder, linspace. rewrite map_length. apply vbuild_len. Qed.

(** the chains of a run: n copies of one object at the temperatures of the ladder; the coolest is tracked *)
Definition walkers {X} (b : base A X) v0 l0 label (n : nat) : list (param A (base A X) vec) :=
  match map (fun T => new_param b v0 l0 T false label) (temp_ladder A n) with
  | [] => []
  | w :: r => SetTracking w true :: r
  end.
Lemma run_carma_inv X (M : methodsP R (base A X) vec) mk npar label N burnin y nw thin init v0 l0 a0 g w g' :
  run_carma chol M mk npar label N burnin y nw thin init v0 l0 a0 g = Ok (w, g') ->
  exists b b1 r e s, 0 < nw /\ mk = Ok b /\ SetPrior b (fmul A (fofZ A 10) (fsqrt A (pop_var A y))) = Ok b1 /\
    ram_new chol (prop_covar A npar y) (fdec A 1 4) burnin a0 = Ok r /\
    Run M (@student_draw A R) N burnin thin [(label, 0)] init (mkSys (walkers b1 v0 l0 label nw) (hot_steps (nw - 1) r e ++ [SRam 0 r]) g) = Ok s /\
    nth_error (y_pars s) 0 = Some w /\ g' = y_gen s.
Proof.
  intros E. unfold run_carma in E. apply bind_Ok in E. destruct E as (ws & Ew & E). cbv zeta in E.
  apply bind_Ok in E. destruct E as (w0 & Ew0 & E). apply bind_Ok in E. destruct E as (r & Er & E).
  apply bind_Ok in E. destruct E as (st & Est & E). apply bind_Ok in E. destruct E as ([ss tr] & Es & E).
  apply bind_Ok in E. destruct E as (s & Erun & E). apply bind_Ok in E. destruct E as (w' & Ew' & E). injection E as <- <-.
  apply vgetU_nth in Ew0. apply vgetU_nth in Ew'.
  destruct (mk_walkers_inv Ew) as [[_ ->]|(b & b1 & Eb & Eb1 & Hws)]; [discriminate|].
  assert (st = (hot_steps (nw - 1) r (mkExch A (Z.of_nat (burnin + thin * N)) 0 0 a0), [])) as ->.
  { refine (AddSteps_untracked (ss := []) _ Est). intros i wi Hwi. rewrite Hws, nth_error_map in Hwi.
    destruct (nth_error (temp_ladder A nw) i); [|discriminate]. injection Hwi as <-. reflexivity. }
  assert (walkers b1 v0 l0 label nw = upd ws 0 (SetTracking w0 true)) as Hwk.
  { unfold walkers. rewrite <- Hws. destruct ws as [|w1 ws']; [discriminate|]. injection Ew0 as ->. reflexivity. }
  assert (w_label w0 = label) as Hlab.
  { rewrite Hws, nth_error_map in Ew0. destruct (nth_error _ 0); [|discriminate]. injection Ew0 as <-. reflexivity. }
  cbn [AddSteps AddStep step_par] in Es. destruct ws as [|w1 ws']; [discriminate|]. injection Ew0 as ->.
  cbn [upd vgetU nth_error bind SetTracking w_track w_label track_insert] in Es. injection Es as <- <-. rewrite Hlab in Erun.
  exists b, b1, r, (mkExch A (Z.of_nat (burnin + thin * N)) 0 0 a0), s. split.
  { destruct nw; [|lia]. unfold temp_ladder, linspace in Hws. cbn in Hws. discriminate. }
  split; [exact Eb|]. split; [exact Eb1|]. split; [exact Er|]. split; [rewrite Hwk; exact Erun|]. split; [exact Ew'|reflexivity].
Qed.
Lemma RunCarma_inv fuel N burnin t y e p q nw z thin init raw v0 l0 a0 g w g' :
  RunCarmaSampler (R := R) dsort solve si chol fuel N burnin t y e p q nw z thin init raw v0 l0 a0 g = Ok (w, g') ->
  exists b b1 r ex s label, 2 <= p /\ 0 < nw /\ walker_new raw p z t y e = Ok b /\ SetPrior b (fmul A (fofZ A 10) (fsqrt A (pop_var A y))) = Ok b1 /\
    ram_new chol (prop_covar A (walker_dim p q z) y) (fdec A 1 4) burnin a0 = Ok r /\
    Run (walker_par fuel p q z) (@student_draw A R) N burnin thin [(label, 0)] init
      (mkSys (walkers b1 v0 l0 label nw) (hot_steps (nw - 1) r ex ++ [SRam 0 r]) g) = Ok s /\
    nth_error (y_pars s) 0 = Some w /\ g' = y_gen s.
Proof.
  unfold RunCarmaSampler, walker_par, walker_new, walker_dim. destruct (Nat.ltb_spec p 2) as [|Hp]; [discriminate|].
  destruct z; [|destruct (q =? 0)]; intros E; destruct (run_carma_inv E) as (b & b1 & r & ex & s & H1 & H2 & H3 & H4 & H5 & H6 & H7);
    exists b, b1, r, ex, s; eexists; (split; [exact Hp|]); (split; [exact H1|]); (split; [exact H2|]); (split; [exact H3|]);
    (split; [exact H4|]); (split; [exact H5|]); split; assumption.
Qed.
Lemma RunCar1_inv N burnin t y e thin init raw v0 l0 a0 g w g' :
  RunCar1Sampler (R := R) vsort si chol N burnin t y e thin init raw v0 l0 a0 g = Ok (w, g') ->
  exists b b1 r s, car1_new si raw t y e = Ok b /\ SetPrior b (fmul A (fofZ A 10) (fsqrt A (pop_var A y))) = Ok b1 /\
    ram_new chol (prop_covar A 4 y) (fdec A 1 4) burnin a0 = Ok r /\
    Run (par1 R vsort) (@student_draw A R) N burnin thin [("CAR(1)"%string, 0)] init
      (mkSys [new_param b1 v0 l0 (fofZ A 1) true "CAR(1)"] [SRam 0 r] g) = Ok s /\
    nth_error (y_pars s) 0 = Some w /\ g' = y_gen s.
Proof.
  intros E. unfold RunCar1Sampler in E. apply bind_Ok in E. destruct E as (b & Eb & E). apply bind_Ok in E. destruct E as (b1 & Eb1 & E).
  cbv zeta in E. apply bind_Ok in E. destruct E as (r & Er & E). apply bind_Ok in E. destruct E as ([ss tr] & Es & E).
  apply bind_Ok in E. destruct E as (s & Erun & E). apply bind_Ok in E. destruct E as (w' & Ew' & E). injection E as <- <-.
  apply vgetU_nth in Ew'. cbn in Es. injection Es as <- <-. exists b, b1, r, s.
  split; [exact Eb|]. split; [exact Eb1|]. split; [exact Er|]. split; [exact Erun|]. split; [exact Ew'|reflexivity].
Qed.

(** ** Facts about the chains and steps of a run *)
Lemma hot_steps_in n (r : ram A) e s : In s (hot_steps n r e) -> exists i, 1 <= i <= n /\ (s = SRam i r \/ s = SExch i e).
Proof.
  induction n as [|n IH]; cbn [hot_steps In]; [intros []|]. intros [<-|[<-|H]].
  - exists (S n). split; [lia|left; reflexivity].
  - exists (S n). split; [lia|right; reflexivity].
  - destruct (IH H) as (i & Hi & Hs). exists i. split; [lia|exact Hs].
Qed.
Lemma hot_steps_cover n (r : ram A) e i : 1 <= i <= n -> In i (map (@step_par A) (hot_steps n r e)).
Proof.
  induction n as [|n IH]; intros H; [lia|]. cbn [hot_steps map step_par In].
  destruct (Nat.eq_dec i (S n)) as [->|]; [left; reflexivity|]. right; right. apply IH. lia.
Qed.
Lemma steps_cover n (r : ram A) e : covered (hot_steps (n - 1) r e ++ [SRam 0 r]) n.
Proof.
  intros i Hi. rewrite map_app. apply in_or_app. destruct i as [|i]; [right; left; reflexivity|left; apply hot_steps_cover; lia].
Qed.
Lemma walkers_len X (b : base A X) v0 l0 label n : List.length (walkers b v0 l0 label n) = n.
Proof.
  unfold walkers. rewrite <- (temp_ladder_len n) at 2. destruct (temp_ladder A n); cbn; [reflexivity|]. rewrite map_length. reflexivity.
Qed.
Lemma walkers_all X (b : base A X) v0 l0 label n (Q : param A (base A X) vec -> Prop) :
  (forall T tr, Q (new_param b v0 l0 T tr label)) -> Forall Q (walkers b v0 l0 label n).
Proof.
  intros H. unfold walkers. destruct (temp_ladder A n) as [|T r]; cbn; [constructor|]. constructor; [apply (H T true)|].
  apply Forall_forall. intros w Hw. apply in_map_iff in Hw. destruct Hw as (T' & <- & _). apply H.
Qed.
Lemma steps_adapt n (r : ram A) e i r' : In (SRam i r') (hot_steps (n - 1) r e ++ [SRam 0 r]) -> r' = r.
Proof.
  intros H. apply in_app_or in H. destruct H as [H|[H|[]]]; [|congruence].
  destruct (hot_steps_in H) as (j & _ & [E|E]); congruence.
Qed.

(** ** C35: bookkeeping *)
Lemma Run_recorded X (M : methodsP R (base A X) vec) N burnin thin label init ws ss g s w :
  Run M (@student_draw A R) N burnin thin [(label, 0)] init (mkSys ws ss g) = Ok s -> nth_error (y_pars s) 0 = Some w ->
  exists y0, begun M init ws ss g y0 /\ recorded M y0 burnin N thin w (y_gen s).
Proof.
  intros E Hw. destruct (@Run_records _ _ _ M _ _ _ _ _ _ _ _ E) as (y0 & (use & ws1 & Hs & Ho & Ht & _ & _ & Hu) & Hss & (yn & Hn & Ha) & Hrec).
  exists y0. cbn [y_pars y_steps y_gen] in *. split.
  - split; [exact Hss|]. exists use, ws1. split; [exact Hs|]. split; [exact Ho|]. split; [exact Ht|exact Hu].
  - destruct (Hrec 0 w (or_introl eq_refl) Hw) as (H1 & H2 & H3). split; [exact H1|]. split; [exact H2|]. split; [exact H3|].
    destruct Ha as (rs & Hl & ->). cbn [zips y_pars y_gen] in Hw. pose proof (zip_vget (y_pars yn) rs 0 Hl) as Hz.
    rewrite (vgetU_nth' _ _ Hw) in Hz. symmetry in Hz. apply bind_Ok in Hz. destruct Hz as (wn & E0 & Q). injection Q as <-. apply vgetU_nth in E0.
    exists yn, wn. split; [exact Hn|]. split; [exact E0|]. repeat (split; [reflexivity|]). reflexivity.
Qed.

(** ** Well-formed objects *)
Lemma SetPrior_ok X (b b1 : base A X) sd : wfb b -> SetPrior b sd = Ok b1 ->
  wfb b1 /\ b_time b1 = b_time b /\ b_y b1 = b_y b /\ b_yerr b1 = b_yerr b /\ b_kf b1 = b_kf b.
Proof.
  intros H E. unfold SetPrior in E. apply bind_Ok in E. destruct E as (bd & _ & Q). injection Q as <-. cbn. repeat split; try reflexivity; apply H.
Qed.
Lemma base_new_kept X (raw : kf A X) t y e b : List.length y = List.length t -> List.length e = List.length t -> all_kept t ->
  base_new si raw t y e = Ok b -> wfb b.
Proof.
  intros Hy He Hk E. destruct (@base_new_wfb A X si raw t y e b Hy He E) as (_ & _ & _ & _ & H). apply H.
  unfold base_new in E. apply bind_Ok in E. destruct E as (v & _ & E). apply bind_Ok in E. destruct E as (bd & _ & E).
  apply bind_Ok in E. destruct E as (s & Es & E). injection E as <-. cbn. exact (Hk _ _ _ _ _ Es).
Qed.
Lemma carp_new_kept (raw : kfp A) p t y e b : List.length y = List.length t -> List.length e = List.length t -> all_kept t ->
  carp_new si raw p t y e = Ok b -> wfb b.
Proof.
  intros Hy He Hk E. unfold carp_new in E. apply bind_Ok in E. destruct E as (b0 & E0 & E). pose proof (base_new_kept Hy He Hk E0) as H.
  destruct (p =? 0); [discriminate|]. injection E as <-. exact H.
Qed.
Lemma walker_new_kept (raw : kfp A) p z t y e b : List.length y = List.length t -> List.length e = List.length t -> all_kept t ->
  walker_new raw p z t y e = Ok b -> wfb b.
Proof.
  intros Hy He Hk E. unfold walker_new in E. destruct z; [|exact (carp_new_kept Hy He Hk E)].
  destruct (@zcar_new_inv A si raw p t y e b E) as (b0 & E0 & _ & H). exact (H (carp_new_kept Hy He Hk E0)).
Qed.

(** ** The parameter classes satisfy the hypotheses of the generic run theorems *)
Definition pld1 (st : static A) (v : vec) : res F := pLD (car1_cls A) (fun om (_ : vec) => om) (@pf1 A) st v.
Definition pldw (p q : nat) (z : bool) (st : static A) (v : vec) : res F :=
  pLD (walker_cls p q z) (fun om (ma : vec) => (om, ma)) (@pfp A solve) st v.
Lemma w_ld fuel p q z st x v l x' : okb st x -> o_LogDensity (walker_par fuel p q z) x v = Ok (l, x') -> pldw p q z st v = Ok l /\ okb st x'.
Proof.
  unfold walker_par, pldw, walker_cls. destruct z; [|destruct (q =? 0)]; cbn [o_LogDensity par_zcar par_carp par_carma parp]; intros H E; exact (LDp_ok H E).
Qed.
Lemma w_start fuel p q z st x g v x' g' : okb st x -> o_Start (walker_par fuel p q z) x g = Ok (v, x', g') ->
  okb st x' /\ exists l, pldw p q z st v = Ok l /\ ffin A l = true.
Proof.
  unfold walker_par, pldw, walker_cls. destruct z; [|destruct (q =? 0)]; cbn [o_Start par_zcar par_carp par_carma parp]; intros H E; exact (start_while_ok H E).
Qed.
Lemma w_set fuel p q z st x i g v x' g' : okb st x -> o_SetStart (walker_par fuel p q z) x i g = Ok (v, x', g') ->
  okb st x' /\ exists l, pldw p q z st v = Ok l /\ ffin A l = true.
Proof.
  unfold walker_par, pldw, walker_cls. destruct z; [|destruct (q =? 0)]; cbn [o_SetStart par_zcar par_carp par_carma parp]; intros H E; exact (set_start_ok H E).
Qed.

(** ** C33 *)
Lemma pld_again1 st x v l : okb st x -> pld1 st v = Ok l -> exists x', LogDensity (car1_cls A) x v = Ok (l, x').
Proof.
  intros [Hw <-] E. destruct (@LD_pure1 A x v Hw) as [H _]. unfold pld1 in E. rewrite E in H.
  destruct (LogDensity _ x v) as [[l' x']| | |]; try discriminate. cbn in H. injection H as ->. exists x'. reflexivity.
Qed.
Lemma pld_againw p q z st x v l : okb st x -> pldw p q z st v = Ok l -> exists x', LogDensity (walker_cls p q z) x v = Ok (l, x').
Proof.
  unfold pldw. intros [Hw <-] E.
  assert (exists maf prior, walker_cls p q z = pcls solve p maf prior) as (maf & prior & EC).
  { unfold walker_cls. destruct z; [|destruct (q =? 0)]; do 2 eexists; reflexivity. }
  rewrite EC in *. destruct (@LD_purep A solve p maf prior x v Hw) as [H0 _]. pose proof (eq_trans H0 E) as H.
  destruct (LogDensity _ x v) as [[l' x']| | |]; try discriminate. cbn in H. injection H as ->. exists x'. reflexivity.
Qed.

Theorem carma_logposts fuel N burnin t y e p q nw z thin init raw v0 l0 a0 g w g' :
  List.length y = List.length t -> List.length e = List.length t -> all_kept t ->
  RunCarmaSampler (R := R) dsort solve si chol fuel N burnin t y e p q nw z thin init raw v0 l0 a0 g = Ok (w, g') ->
  forall i v, nth_error (w_samples w) i = Some v ->
    exists l x, nth_error (w_logposts w) i = Some l /\ LogDensity (walker_cls p q z) (w_obj w) v = Ok (l, x).
Proof.
  intros Hy He Hk E i v Hv. destruct (RunCarma_inv E) as (b & b1 & r & ex & s & label & _ & _ & Eb & Eb1 & _ & Erun & Hw & ->).
  destruct (SetPrior_ok (walker_new_kept Hy He Hk Eb) Eb1) as (Hwf & _).
  set (st := static_of b1).
  destruct (@Run_inv _ _ _ (walker_par fuel p q z) (@student_draw A R) (@okb A _ st) (pldw p q z st) (@w_ld fuel p q z st)
    (fun x g v x' g' H E => proj1 (w_start H E)) (fun x i g v x' g' H E => proj1 (w_set H E)) _ _ _ _ _ _ _ Erun) as (y0 & _ & Hfin & _ & Hrec).
  - cbn [y_pars]. apply walkers_all. intros T tr. split; [exact Hwf|reflexivity].
  - cbn [y_pars y_steps]. rewrite walkers_len. apply steps_cover.
  - destruct (Hrec 0 w (or_introl eq_refl) Hw i v Hv) as (l & Hl & Hp).
    destruct (proj1 (Forall_nth_error _ _) Hfin _ _ Hw) as [Ho _].
    destruct (pld_againw Ho Hp) as (x & Ex). exists l, x. split; assumption.
Qed.
Theorem car1_logposts N burnin t y e thin init raw v0 l0 a0 g w g' :
  List.length y = List.length t -> List.length e = List.length t -> all_kept t ->
  RunCar1Sampler (R := R) vsort si chol N burnin t y e thin init raw v0 l0 a0 g = Ok (w, g') ->
  forall i v, nth_error (w_samples w) i = Some v ->
    exists l x, nth_error (w_logposts w) i = Some l /\ LogDensity (car1_cls A) (w_obj w) v = Ok (l, x).
Proof.
  intros Hy He Hk E i v Hv. destruct (RunCar1_inv E) as (b & b1 & r & s & Eb & Eb1 & _ & Erun & Hw & ->).
  destruct (SetPrior_ok (base_new_kept Hy He Hk Eb) Eb1) as (Hwf & _).
  set (st := static_of b1).
  destruct (@Run_inv _ _ _ (par1 R vsort) (@student_draw A R) (@okb A _ st) (pld1 st) (fun x v l x' H E => @LD1_ok A st x v l x' H E)
    (fun x g v x' g' H E => Start1_ok H E) (fun x i g v x' g' H E => SetStart1_ok H E) _ _ _ _ _ _ _ Erun) as (y0 & _ & Hfin & _ & Hrec).
  - cbn [y_pars]. constructor; [|constructor]. split; [exact Hwf|reflexivity].
  - cbn [y_pars y_steps]. intros j Hj. cbn in Hj. left. cbn. lia.
  - destruct (Hrec 0 w (or_introl eq_refl) Hw i v Hv) as (l & Hl & Hp).
    destruct (proj1 (Forall_nth_error _ _) Hfin _ _ Hw) as [Ho _].
    destruct (pld_again1 Ho Hp) as (x & Ex). exists l, x. split; assumption.
Qed.

(** ** C35 *)
Theorem carma_recorded fuel N burnin t y e p q nw z thin init raw v0 l0 a0 g w g' :
  RunCarmaSampler (R := R) dsort solve si chol fuel N burnin t y e p q nw z thin init raw v0 l0 a0 g = Ok (w, g') ->
  exists b r ex label y0, 0 < nw /\
    begun (walker_par fuel p q z) init (walkers b v0 l0 label nw) (hot_steps (nw - 1) r ex ++ [SRam 0 r]) g y0 /\
    recorded (walker_par fuel p q z) y0 burnin N thin w g'.
Proof.
  intros E. destruct (RunCarma_inv E) as (b & b1 & r & ex & s & label & _ & Hn & _ & _ & _ & Erun & Hw & ->).
  destruct (Run_recorded Erun Hw) as (y0 & H1 & H2). exists b1, r, ex, label, y0. split; [exact Hn|split; assumption].
Qed.
Theorem car1_recorded N burnin t y e thin init raw v0 l0 a0 g w g' :
  RunCar1Sampler (R := R) vsort si chol N burnin t y e thin init raw v0 l0 a0 g = Ok (w, g') ->
  exists b r y0, begun (par1 R vsort) init [new_param b v0 l0 (fofZ A 1) true "CAR(1)"] [SRam 0 r] g y0 /\
    recorded (par1 R vsort) y0 burnin N thin w g'.
Proof.
  intros E. destruct (RunCar1_inv E) as (b & b1 & r & s & _ & _ & _ & Erun & Hw & ->).
  destruct (Run_recorded Erun Hw) as (y0 & H1 & H2). exists b1, r, y0. split; assumption.
Qed.
Lemma ram_new_safe L t n a : safe (ram_new chol L t n a).
Proof. unfold ram_new. destruct (chol L); discriminate. Qed.
Lemma AddSteps_safe X (ws : list (param A (base A X) vec)) l : forall st, Forall (fun s => step_par s < List.length ws) l -> safe (AddSteps st ws l).
Proof.
  induction l as [|s l IH]; intros st H; cbn [AddSteps]; [discriminate|]. inversion H as [|? ? H1 H2]; subst.
  apply safe_bind; [|intros; apply IH, H2]. unfold AddStep. destruct st as [ss tr]. apply safe_bind; [apply safe_vgetU, H1|]. intros; discriminate.
Qed.
Lemma mk_walkers_safe X (mk : res (base A X)) sd v0 l0 label temps : safe mk -> safe (mk_walkers mk sd v0 l0 label temps).
Proof.
  intros H. induction temps as [|T temps IH]; cbn [mk_walkers]; [discriminate|].
  apply safe_bind; [exact H|]. intros b _. apply safe_bind; [apply safe_SetPrior|]. intros b1 _. apply safe_bind; [exact IH|]. intros; discriminate.
Qed.
Lemma mk_walkers_len X (mk : res (base A X)) sd v0 l0 label n ws : mk_walkers mk sd v0 l0 label (temp_ladder A n) = Ok ws -> List.length ws = n.
Proof.
  intros E. rewrite <- (temp_ladder_len n) at 1. destruct (mk_walkers_inv E) as [[-> ->]|(b & b1 & _ & _ & ->)]; [reflexivity|]. apply map_length.
Qed.
Lemma Forall_hot n (r : ram A) e (Q : step A -> Prop) : (forall i, 1 <= i <= n -> Q (SRam i r) /\ Q (SExch i e)) -> Forall Q (hot_steps n r e).
Proof. intros H. apply Forall_forall. intros s Hs. destruct (hot_steps_in Hs) as (i & Hi & [->| ->]); apply (H i Hi). Qed.
Lemma sweeps_len X (M : methodsP R X vec) d n y y' : sweeps M d n y y' -> List.length (y_pars y') = List.length (y_pars y).
Proof.
  intros H. induction H as [|n y y1 y2 _ IH H]; [reflexivity|]. rewrite <- IH. clear IH.
  induction H as [|s ss ws g s' ws1 g1 ss' ws2 g2 E _ IH]; [reflexivity|]. rewrite IH. exact (@do_step_len _ _ _ M d _ _ _ _ _ _ E).
Qed.
Lemma run_carma_safe X (M : methodsP R (base A X) vec) mk npar label N burnin y nw thin init v0 l0 a0 g : 0 < nw -> safe mk ->
  (forall x v, safe (o_LogDensity M x v)) -> (forall x v, safe (o_Save M x v)) -> (forall x g, safe (o_Start M x g)) ->
  (forall x i g, safe (o_SetStart M x i g)) ->
  safe (run_carma chol M mk npar label N burnin y nw thin init v0 l0 a0 g).
Proof.
  intros Hn Hmk S1 S2 S3 S4. unfold run_carma. apply safe_bind; [apply mk_walkers_safe, Hmk|]. intros ws Ews. cbv zeta.
  pose proof (mk_walkers_len Ews) as Hl.
  apply safe_bind; [apply safe_vgetU; rewrite Hl; exact Hn|]. intros w0 _. apply safe_bind; [apply ram_new_safe|]. intros r _.
  set (e0 := mkExch A _ _ _ _).
  assert (Forall (fun s => step_par s < nw) (hot_steps (nw - 1) r e0)) as Hh by (apply Forall_hot; intros i Hi; cbn; lia).
  apply safe_bind; [apply AddSteps_safe; rewrite Hl; exact Hh|].
  intros st Est. apply safe_bind; [apply AddSteps_safe; rewrite upd_length, Hl; constructor; [exact Hn|constructor]|]. intros [ss tr] Ess.
  assert (st = (hot_steps (nw - 1) r e0, [])) as ->.
  { refine (AddSteps_untracked (ss := []) _ Est). intros i wi Hwi. destruct (mk_walkers_inv Ews) as [[_ ->]|(b & b1 & _ & _ & ->)].
    - destruct i; discriminate.
    - rewrite nth_error_map in Hwi. destruct (nth_error (temp_ladder A nw) i); [|discriminate]. injection Hwi as <-. reflexivity. }
  cbn [AddSteps] in Ess. apply bind_Ok in Ess. destruct Ess as (st & Ess & Q). injection Q as ->. unfold AddStep in Ess. cbn [step_par] in Ess.
  apply bind_Ok in Ess. destruct Ess as (w1 & Ew1 & Ess). injection Ess as <- <-.
  apply safe_bind.
  - apply (@Run_safe A R _ M (@student_draw A R) (fun _ => True)); try (intros; exact I); intros; try apply S1; try apply S2; try apply S3; try apply S4.
    + split; cbn [y_pars y_steps]; [apply Forall_forall; intros; exact I|]. rewrite upd_length, Hl. apply Forall_app. split.
      * apply Forall_hot. intros i Hi. unfold valid_step. cbn. lia.
      * constructor; [|constructor]. unfold valid_step. cbn. split; [exact Hn|exact I].
    + cbn [y_steps]. destruct (hot_steps _ _ _); discriminate.
    + cbn [y_pars]. rewrite upd_length, Hl. destruct (w_track w1); [|constructor]. cbn. constructor; [exact Hn|constructor].
  - intros s Es. apply safe_bind; [|intros; discriminate]. apply safe_vgetU.
    destruct (@Run_records _ _ _ M _ _ _ _ _ _ _ _ Es) as (y0 & (use & ws1 & Hs & Ho & _) & _ & (yn & Hsw & Ha) & _). cbn [y_pars] in *.
    destruct (started_len Hs) as [L1 _]. apply map_len in Ho.
    assert (List.length (y_pars yn) = List.length (y_pars y0)) as L2.
    { exact (sweeps_len Hsw). }
    destruct Ha as (rs & Hlr & ->). cbn [zips y_pars]. rewrite zip_len by exact Hlr. rewrite L2. rewrite upd_length in Ho. lia.
Qed.
End Drv.
