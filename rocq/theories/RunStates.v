(** The states of a CAR(1) run, one by one, in any arithmetic. *)
From Coq Require Import List Arith ZArith Bool String Lia.
From Verif Require Import Arith Res ListLemmas KFModel KF1X History CarpackModel LogLikProof EngineModel EngineSpec StartModel EngineProof EngineInv EngineClass EngineDriver EngineRuns EngineHist.
Import ListNotations.

Set Implicit Arguments.

Section States.
Variable A : Arith.
Variable R : rng A.
Local Notation vec := (list (F A)).
Variable vsort : vec -> option vec.
Variable si : vec -> option (list nat).
Variable chol : mat A -> option (mat A).

(** what is known of the only chain after any number of sweeps: it has the data of b1, its log-posterior is that of its value, its temperature is 1 *)
Definition chain_of (b1 : base A (F A)) (w : param A (base A (F A)) vec) : Prop :=
  okb (static_of b1) (w_obj w) /\ pld1 (static_of b1) (w_value w) = Ok (w_logpost w) /\ w_temp w = fofZ A 1.

Lemma car1_states N burnin t y e thin init raw v0 l0 a0 (g : gen R) w g' :
  List.length y = List.length t -> List.length e = List.length t -> all_kept si t ->
  RunCar1Sampler vsort si chol N burnin t y e thin init raw v0 l0 a0 g = Ok (w, g') ->
  exists b b1 r y0, car1_new si raw t y e = Ok b /\ SetPrior b (fmul A (fofZ A 10) (fsqrt A (pop_var A y))) = Ok b1 /\
    ram_new chol (prop_covar A 4 y) (fdec A 1 4) burnin a0 = Ok r /\ wfb b1 /\
    recorded (par1 R vsort) y0 burnin N thin w g' /\
    forall k yk, sweeps (par1 R vsort) (@student_draw A R) k y0 yk -> exists wk rk, y_pars yk = [wk] /\ y_steps yk = [SRam 0 rk] /\ chain_of b1 wk.
Proof.
  intros Hy He Hk E. destruct (RunCar1_inv E) as (b & b1 & r & s & Eb & Eb1 & Er & Erun & Hw & ->).
  destruct (EngineDriver.SetPrior_ok (base_new_kept Hy He Hk Eb) Eb1) as (Hwf & _).
  destruct (Run_recorded Erun Hw) as (y0 & Hb & Hrec). exists b, b1, r, y0. split; [exact Eb|]. split; [exact Eb1|]. split; [exact Er|]. split; [exact Hwf|]. split; [exact Hrec|].
  destruct Hb as (Ess & use & ws1 & Hs & Ho & Ht & _). set (st := static_of b1).
  pose proof (fun x v l x' H E => @LD1_ok A st x v l x' H E) as Hld.
  assert (Forall (fun w => @okb A _ st (w_obj w)) ws1) as Hok1.
  { apply (map_obj_ok (ok := @okb A _ st) Ho). constructor; [split; [exact Hwf|reflexivity]|constructor]. }
  assert (Forall (@inv A _ (@okb A _ st) (pld1 st)) (y_pars y0)) as Hi0.
  { refine (@started_all _ _ _ (par1 R vsort) (@okb A _ st) (pld1 st) Hld
      (fun x g v x' g' H E => Start1_ok H E) (fun x i g v x' g' H E => SetStart1_ok H E) _ _ _ _ _ _ _ Hs Hok1 _).
    intros j Hj. rewrite (map_len Ho) in Hj. left. cbn in *. lia. }
  intros k yk Hsw.
  pose proof (sweeps_inv (P := par1 R vsort) (ok := @okb A _ st) (pld := pld1 st) Hld Hsw Hi0) as Hik.
  pose proof (sweeps_temps Hsw) as Htk. rewrite (started_temps Hs), Ht in Htk. cbn [map new_param w_temp] in Htk.
  destruct (y_pars yk) as [|wk [|? ?]]; try discriminate Htk. injection Htk as Htk.
  pose proof (sweeps_srel Hsw) as F1. rewrite Ess in F1.
  assert (exists s', y_steps yk = [s'] /\ srel k (SRam 0 r) s') as (s' & Ey & Hs').
  { clear - F1. destruct (y_steps yk) as [|s' [|]]; inversion F1 as [|? ? ? ? Hs Hl]; inversion Hl. exists s'. split; [reflexivity|exact Hs]. }
  destruct s' as [i' rk|]; cbn in Hs'; [|contradiction]. destruct Hs' as (-> & _). exists wk, rk. split; [reflexivity|]. split; [exact Ey|].
  inversion Hik as [|? ? [I1 I2] _]. split; [exact I1|]. split; [exact I2|exact Htk].
Qed.

(** one sweep is one decision *)
Lemma sweep_decision X (P : methodsP R X vec) draw (r : ram A) (w : param A X vec) g ss' ws' g' :
  in_order P draw [SRam 0 r] [w] g ss' ws' g' ->
  exists new g1 acc r1 w1 g2 w', ram_accept P r w new g1 = Ok (acc, r1, w1, g2) /\ ws' = [w'] /\ g' = g2 /\ w_value w' = if acc then new else w_value w.
Proof.
  intros H. inversion H as [|? ? ? ? s' ws1 g1 ? ? ? Hd Hr]; subst. inversion Hr; subst. cbn [do_step vgetU nth_error bind] in Hd.
  apply bind_Ok in Hd. destruct Hd as ([[r' w'] h] & E & Q). injection Q as _ <- <-.
  unfold ram_step in E. destruct (draws _ _ g) as [un h1]. apply bind_Ok in E. destruct E as (sc & _ & E). apply bind_Ok in E. destruct E as (new & _ & E).
  apply bind_Ok in E. destruct E as ([[[acc r1] w1] h2] & Ea & E). apply bind_Ok in E. destruct E as (w2 & Es & E). apply bind_Ok in E. destruct E as (r2 & _ & E).
  injection E as _ <- <-. exists new, h1, acc, r1, w1, h2, w2. split; [exact Ea|]. split; [reflexivity|]. split; [reflexivity|].
  assert (w_value w1 = w_value w) as Ev.
  { unfold ram_accept, LD in Ea. apply bind_Ok in Ea. destruct Ea as ([l w3] & E1 & E2). apply bind_Ok in E1. destruct E1 as ([l' x] & _ & Q). injection Q as _ <-.
    destruct (negb _); [injection E2 as _ _ <- _; reflexivity|]. destruct (runiform _ _ _) as [u h3]. destruct (flt A u _); injection E2 as _ _ <- _; reflexivity. }
  destruct acc; [|injection Es as <-; exact Ev]. unfold Save in Es. apply bind_Ok in Es. destruct Es as ([l x] & _ & Q). injection Q as <-. reflexivity.
Qed.
End States.
