(** C41 (continued): the schedule of the adaptation.  After k passes of a run every AdaptiveMetro step has counted k iterations,
    no more than k of them accepted, and keeps its target rate 1/4, exponent 2/3 and last adaptive iteration. *)
From Coq Require Import String.
From Coq Require Import Reals List Arith ZArith Lra Lia Bool.
From Verif Require Import Arith Res ListLemmas KFModel Emb Cx KFpModel CarpackModel EngineModel StartModel EngineSpec EngineProof EngineInv EngineHist EngineDriver EngineTop.
From Verif Require PropsEngine.
Import ListNotations.

Section Any.
Variable A : Arith.
Variable R0 : rng A.
Variable X : Type.
Variable P : methodsP R0 X (list (F A)).
Variable draw : F A -> gen R0 -> F A * gen R0.
Local Notation param := (param A X (list (F A))).

Lemma accept_settings r (w : param) new g a r1 w1 g2 : ram_accept P r w new g = Ok (a, r1, w1, g2) ->
  r_target r1 = r_target r /\ r_gamma r1 = r_gamma r /\ r_naccept r1 = r_naccept r + (if a then 1 else 0).
Proof.
  unfold ram_accept. intros E. apply bind_Ok in E. destruct E as ([l w2] & _ & E). destruct (negb _); [injection E as <- <- _ _; cbn; repeat split; lia|].
  destruct (runiform _ _ g) as [u g1]. destruct (flt A u _); injection E as <- <- _ _; cbn; repeat split; lia.
Qed.
Lemma step_settings r (w : param) g r' w' g' : ram_step P draw r w g = Ok (r', w', g') ->
  r_target r' = r_target r /\ r_gamma r' = r_gamma r /\ r_naccept r <= r_naccept r' <= S (r_naccept r).
Proof.
  unfold ram_step. destruct (draws _ _ g) as [u g1]. intros E.
  apply bind_Ok in E. destruct E as (sc & _ & E). apply bind_Ok in E. destruct E as (new & _ & E).
  apply bind_Ok in E. destruct E as ([[[a r1] w1] g2] & Ea & E). apply bind_Ok in E. destruct E as (w2 & _ & E).
  apply bind_Ok in E. destruct E as (r2 & Er & E). injection E as <- _ _. cbn [r_target r_gamma r_naccept].
  destruct (accept_settings _ _ _ _ _ _ _ _ Ea) as (H1 & H2 & H3).
  assert (r_target r2 = r_target r1 /\ r_gamma r2 = r_gamma r1 /\ r_naccept r2 = r_naccept r1) as (-> & -> & ->).
  { unfold ram_adapt in Er. destruct (_ && _); [|injection Er as <-; auto]. apply bind_Ok in Er. destruct Er as ([L v] & _ & Er). injection Er as <-. auto. }
  rewrite H1, H2, H3. split; [reflexivity|]. split; [reflexivity|]. destruct a; lia.
Qed.
Definition settled (k : nat) (s s' : step A) : Prop :=
  match s, s' with
  | SRam i r, SRam i' r' => i' = i /\ r_target r' = r_target r /\ r_gamma r' = r_gamma r /\ r_naccept r <= r_naccept r' <= k + r_naccept r
  | SExch i _, SExch i' _ => i' = i
  | _, _ => False
  end.
Lemma do_step_settled s ws g s' ws' g' : do_step P draw s ws g = Ok (s', ws', g') -> settled 1 s s'.
Proof.
  destruct s as [i r|[|j] e]; cbn [do_step]; intros E; [|discriminate|].
  - apply bind_Ok in E. destruct E as (w & _ & E). apply bind_Ok in E. destruct E as ([[r' w'] g1] & E1 & E). injection E as <- _ _.
    destruct (step_settings _ _ _ _ _ _ E1) as (H1 & H2 & H3). cbn. repeat split; try assumption; lia.
  - apply bind_Ok in E. destruct E as (w & _ & E). apply bind_Ok in E. destruct E as (o & _ & E).
    apply bind_Ok in E. destruct E as ([[[e' w'] o'] g1] & _ & E). injection E as <- _ _. reflexivity.
Qed.
Lemma in_order_settled ss ws g ss' ws' g' : in_order P draw ss ws g ss' ws' g' -> Forall2 (settled 1) ss ss'.
Proof. intros H. induction H as [|s ss ws g s' ws1 g1 ss' ws2 g2 E _ IH]; constructor; [exact (do_step_settled _ _ _ _ _ _ E)|exact IH]. Qed.
Lemma sweeps_settled n (y y' : sys R0 X) : sweeps P draw n y y' -> Forall2 (settled n) (y_steps y) (y_steps y').
Proof.
  intros H. induction H as [y|n y y1 y2 _ IH H].
  - induction (y_steps y) as [|s ss IH]; constructor; [destruct s; cbn; repeat split; lia|exact IH].
  - apply in_order_settled in H. clear -IH H. revert IH H. generalize (y_steps y) (y_steps y1) (y_steps y2). intros a b c Hab Hbc.
    revert c Hbc. induction Hab as [|x z a b Hxz _ IHab]; intros c Hbc; inversion Hbc as [|? s3 ? ? Hzs]; subst; constructor; [|apply IHab; assumption].
    destruct x, z, s3; cbn in *; try contradiction; try congruence. destruct Hxz as (A1 & A2 & A3 & A4), Hzs as (B1 & B2 & B3 & B4). repeat split; try congruence; lia.
Qed.
Lemma schedule b t gm n (y y' : sys R0 X) : (forall i r, In (SRam i r) (y_steps y) -> r_niter r = 0 /\ r_naccept r = 0 /\ r_maxiter r = b /\ r_target r = t /\ r_gamma r = gm) ->
  sweeps P draw n y y' -> forall i r, In (SRam i r) (y_steps y') -> r_niter r = n /\ r_naccept r <= n /\ r_maxiter r = b /\ r_target r = t /\ r_gamma r = gm.
Proof.
  intros H Hs. pose proof (sweeps_srel Hs) as F1. pose proof (sweeps_settled _ _ _ Hs) as F2. clear Hs. revert F1 F2 H. generalize (y_steps y) (y_steps y').
  intros ss ss' F1 F2. induction F1 as [|s s' ss ss' H1 _ IH]; intros H i r Hin; [destruct Hin|]. inversion F2 as [|? ? ? ? G1 G2]; subst. destruct Hin as [->|Hin].
  - destruct s as [i0 r0|]; cbn in H1, G1; [|contradiction]. destruct (H i0 r0 (or_introl eq_refl)) as (E1 & E2 & E3 & E4 & E5).
    destruct H1 as (_ & H1 & H2 & _), G1 as (_ & G1 & G3 & G4). repeat split; try congruence; lia.
  - exact (IH G2 (fun j r0 Hj => H j r0 (or_intror Hj)) i r Hin).
Qed.
End Any.
Lemma hot_has A n (r : ram A) e i : 1 <= i <= n -> In (SRam i r) (hot_steps n r e).
Proof.
  induction n as [|n IH]; intros H; [lia|]. cbn [hot_steps]. destruct (Nat.eq_dec i (S n)) as [->|N]; [left; reflexivity|right; right; apply IH; lia].
Qed.

(** C41, CARMA runs: y0 is the state after initialisation, [begun] and [recorded] tie it to the run as in C41_carma_adaptation_stops. *)
Theorem C41_carma_schedule :
  forall (A : Arith) (R : rng A) (dsort : list (F A) -> option (list (F A))) (solve : list (list (cx A)) -> list (cx A) -> option (list (cx A)))
    (si : list (F A) -> option (list nat)) (chol : mat A -> option (mat A)) (fuel N burnin : nat) (t y e : list (F A)) (p q nw : nat) (z : bool)
    (thin : nat) (init : list (F A)) (raw : kfp A) (v0 : list (F A)) (l0 a0 : F A) (g : gen R) (w : param A (base A (kpx A)) (list (F A))) (g' : gen R),
  RunCarmaSampler dsort solve si chol fuel N burnin t y e p q nw z thin init raw v0 l0 a0 g = Ok (w, g') ->
  exists (b : base A (kpx A)) (r : ram A) (ex0 : exch A) (label : string) (y0 : sys R (base A (kpx A))),
    begun (walker_par R dsort solve fuel p q z) init (walkers b v0 l0 label nw) (hot_steps (nw - 1) r ex0 ++ [SRam 0 r]) g y0 /\
    recorded (walker_par R dsort solve fuel p q z) y0 burnin N thin w g' /\
    forall k yk, sweeps (walker_par R dsort solve fuel p q z) (student_draw (R:=R)) k y0 yk ->
    (forall i, i < nw -> exists rk, In (SRam i rk) (y_steps yk)) /\
    forall i rk, In (SRam i rk) (y_steps yk) ->
      r_niter rk = k /\ r_naccept rk <= k /\ r_maxiter rk = burnin /\ r_target rk = fdec A 1 4 /\ r_gamma rk = fdiv A (fofZ A 2) (fofZ A 3).
Proof.
  intros A R dsort solve si chol fuel N burnin t y e p q nw z thin init raw v0 l0 a0 g w g' E.
  destruct (RunCarma_inv E) as (b & b1 & r & ex & s & label & _ & Hn & _ & _ & Er & Erun & Hw & ->).
  destruct (Run_recorded Erun Hw) as (y0 & H1 & H2). exists b1, r, ex, label, y0. split; [exact H1|]. split; [exact H2|]. intros k yk Hk.
  destruct H1 as [Es _]. split.
  - intros i Hi. pose proof (sweeps_srel Hk) as F1. rewrite Es in F1.
    assert (exists r0, In (SRam i r0) (hot_steps (nw - 1) r ex ++ [SRam 0 r])) as (r0 & Hin).
    { exists r. apply in_app_iff. destruct i as [|i]; [right; left; reflexivity|left]. apply hot_has. lia. }
    clear - F1 Hin. induction F1 as [|s s' ss ss' H _ IH]; [destruct Hin|]. destruct Hin as [->|Hin].
    + destruct s' as [i' r'|]; cbn in H; [|contradiction]. destruct H as (-> & _). exists r'. left. reflexivity.
    + destruct (IH Hin) as (r' & Hr). exists r'. right. exact Hr.
  - refine (schedule A R _ (walker_par R dsort solve fuel p q z) (@student_draw A R) burnin (fdec A 1 4) (fdiv A (fofZ A 2) (fofZ A 3)) k y0 yk _ Hk).
    intros i r' Hin. rewrite Es in Hin. apply steps_adapt in Hin. subst r'. unfold ram_new in Er. destruct (chol _); [|discriminate]. injection Er as <-. cbn. auto.
Qed.
Print Assumptions C41_carma_schedule.

(** C41, CAR(1) runs. *)
Theorem C41_car1_schedule :
  forall (A : Arith) (R : rng A) (vsort : list (F A) -> option (list (F A))) (si : list (F A) -> option (list nat)) (chol : mat A -> option (mat A))
    (N burnin : nat) (t y e : list (F A)) (thin : nat) (init : list (F A)) (raw : kf1 A) (v0 : list (F A)) (l0 a0 : F A) (g : gen R)
    (w : param A (base A (F A)) (list (F A))) (g' : gen R),
  RunCar1Sampler vsort si chol N burnin t y e thin init raw v0 l0 a0 g = Ok (w, g') ->
  exists (b : base A (F A)) (r : ram A) (y0 : sys R (base A (F A))),
    begun (par1 R vsort) init [new_param b v0 l0 (fofZ A 1) true "CAR(1)"] [SRam 0 r] g y0 /\
    recorded (par1 R vsort) y0 burnin N thin w g' /\
    forall k yk, sweeps (par1 R vsort) (student_draw (R:=R)) k y0 yk -> exists rk, y_steps yk = [SRam 0 rk] /\
      r_niter rk = k /\ r_naccept rk <= k /\ r_maxiter rk = burnin /\ r_target rk = fdec A 1 4 /\ r_gamma rk = fdiv A (fofZ A 2) (fofZ A 3).
Proof.
  intros A R vsort si chol N burnin t y e thin init raw v0 l0 a0 g w g' E.
  destruct (RunCar1_inv E) as (b & b1 & r & s & _ & _ & Er & Erun & Hw & ->).
  destruct (Run_recorded Erun Hw) as (y0 & H1 & H2). exists b1, r, y0. split; [exact H1|]. split; [exact H2|]. intros k yk Hk. destruct H1 as [Es _].
  pose proof (sweeps_srel Hk) as F1. rewrite Es in F1.
  assert (exists s', y_steps yk = [s'] /\ srel k (SRam 0 r) s') as (s' & Ey & Hs).
  { clear - F1. destruct (y_steps yk) as [|s' [|]]; inversion F1 as [|? ? ? ? Hs Hl]; inversion Hl. exists s'. split; [reflexivity|exact Hs]. }
  destruct s' as [i' rk|]; cbn in Hs; [|contradiction]. destruct Hs as (-> & _). exists rk. split; [exact Ey|].
  apply (schedule A R _ (par1 R vsort) (@student_draw A R) burnin (fdec A 1 4) (fdiv A (fofZ A 2) (fofZ A 3)) k y0 yk) with (i := 0); [|exact Hk|rewrite Ey; left; reflexivity].
  intros i r' Hin. rewrite Es in Hin. destruct Hin as [Hin|[]]. injection Hin as _ <-. unfold ram_new in Er. destruct (chol _); [|discriminate]. injection Er as <-. cbn. auto.
Qed.
Print Assumptions C41_car1_schedule.
