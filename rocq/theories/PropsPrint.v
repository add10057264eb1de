(** C124: the acceptance rates that a run prints. *)
From Coq Require Import String.
From Coq Require Import Reals List Arith ZArith Bool Lia Lra.
From Verif Require Import Arith Res ListLemmas KFModel Emb Cx KFpModel CarpackModel EngineModel StartModel EngineSpec EngineProof EngineDriver PrintModel PrintProof.
From Verif Require PropsEngine SeedRefute.
Import ListNotations.
Local Open Scope nat_scope.

Lemma flat_map_last {T} (f : nat -> list T) a n : 1 <= n -> (forall j, a < j < a + n -> f j = []) -> flat_map f (seq (S a) n) = f (a + n).
Proof.
  intros Hn H. destruct n as [|n]; [lia|]. rewrite seq_S, flat_map_app. cbn [flat_map]. rewrite app_nil_r. replace (S a + n) with (a + S n) by lia.
  replace (flat_map f (seq (S a) n)) with (@nil T); [reflexivity|]. symmetry. rewrite flat_map_concat_map.
  assert (forall j, In j (seq (S a) n) -> f j = []) as Hz by (intros j Hj; apply in_seq in Hj; apply H; lia).
  induction (seq (S a) n) as [|j l IH]; [reflexivity|]. cbn. rewrite (Hz j (or_introl eq_refl)), IH; [reflexivity|]. intros i Hi. apply Hz. right. exact Hi.
Qed.
Lemma flat_map_none {T} (f : nat -> list T) a n : (forall j, a < j <= a + n -> f j = []) -> flat_map f (seq (S a) n) = [].
Proof. intros H. destruct n as [|n]; [reflexivity|]. rewrite flat_map_last by (lia || (intros; apply H; lia)). apply H. lia. Qed.

Section Lines.
Variable A : Arith.
Variables (r : ram A) (e : exch A) (burnin M : nat).
Hypothesis Hr : r_maxiter r = burnin.
Hypothesis He : e_report e = Z.of_nat M.
Local Notation arate := (arate A).
Lemma ram_lines p i E : lines_of A p (SRam i r) E = if List.length E =? burnin then [LRam (arate (accepted p E) burnin)] else [].
Proof. cbn [lines_of]. rewrite Hr. destruct (Nat.eqb_spec (List.length E) burnin) as [->|]; reflexivity. Qed.
Lemma exch_lines p i E : 0 < List.length E <= M -> lines_of A p (SExch i e) E = if List.length E =? M then [LExch (arate (accepted p E) M)] else [].
Proof.
  intros HE. cbn [lines_of]. rewrite He, Nat2Z.id. rewrite (proj2 (Nat.ltb_lt 0 M)) by lia. cbn [andb].
  destruct (Nat.eqb_spec (List.length E) M) as [E1|N].
  - rewrite E1, Nat.mod_same by lia. rewrite Nat.eqb_refl, Nat.sub_diag. reflexivity.
  - rewrite Nat.mod_small by lia. rewrite (proj2 (Nat.eqb_neq _ _)) by lia. reflexivity.
Qed.
Lemma hot_lines E n : 0 < List.length E <= M -> forall p, lines_from A p (hot_steps n r e) E =
  flat_map (fun k => (if List.length E =? burnin then [LRam (arate (accepted (p + 2 * k) E) burnin)] else []) ++
                     (if List.length E =? M then [LExch (arate (accepted (p + 2 * k + 1) E) M)] else [])) (seq 0 n).
Proof.
  intros HE. induction n as [|n IH]; intros p; [reflexivity|]. cbn [hot_steps lines_from seq flat_map]. rewrite ram_lines, exch_lines, IH by exact HE.
  rewrite <- app_assoc. replace (p + 2 * 0) with p by lia. replace (p + 1) with (S p) by lia. f_equal. f_equal. rewrite <- seq_shift, !flat_map_concat_map, map_map. f_equal.
  apply map_ext. intros k. replace (S (S p) + 2 * k) with (p + 2 * S k) by lia. replace (p + 2 * S k + 1) with (p + 2 * S k + 1) by lia. reflexivity.
Qed.
Lemma from_app p ss ss' E : lines_from A p (ss ++ ss') E = lines_from A p ss E ++ lines_from A (p + List.length ss) ss' E.
Proof using Type. revert p. induction ss as [|s ss IH]; intros p; cbn [lines_from app List.length]; [rewrite Nat.add_0_r; reflexivity|]. rewrite IH, <- app_assoc, Nat.add_succ_r. reflexivity. Qed.
Lemma hot_len n : List.length (hot_steps n r e) = 2 * n.
Proof using Type. clear burnin M Hr He. induction n as [|n IH]; cbn [hot_steps List.length]; lia. Qed.
Lemma flat_map_single {T} (f : nat -> T) l : flat_map (fun k => [f k]) l = map f l.
Proof. induction l as [|x l IH]; cbn; [reflexivity|]. rewrite IH. reflexivity. Qed.

Variable n : nat.
Local Notation ss := (hot_steps n r e ++ [SRam 0 r]).
Lemma step_at k : k <= n -> exists r', nth_error ss (2 * k) = Some (SRam (n - k) r').
Proof using Type.
  clear burnin M Hr He. revert k. induction n as [|n' IH]; intros k Hk; [assert (k = 0) as -> by lia; exists r; reflexivity|]. destruct k as [|k]; [exists r; reflexivity|].
  cbn [hot_steps app]. replace (2 * S k) with (S (S (2 * k))) by lia. cbn [nth_error]. apply IH. lia.
Qed.
Lemma exch_at k : k < n -> exists e', nth_error ss (2 * k + 1) = Some (SExch (n - k) e').
Proof using Type.
  clear burnin M Hr He. revert k. induction n as [|n' IH]; intros k Hk; [lia|]. destruct k as [|k]; [exists e; reflexivity|].
  cbn [hot_steps app]. replace (2 * S k + 1) with (S (S (2 * k + 1))) by lia. cbn [nth_error]. apply IH. lia.
Qed.
Lemma burnin_lines E : burnin < M -> burnin <= List.length E -> lines_passes A ss E 0 burnin =
  if burnin =? 0 then [] else map (fun k => LRam (arate (accepted (2 * k) (firstn burnin E)) burnin)) (seq 0 (S n)).
Proof.
  intros HM HE. destruct (Nat.eqb_spec burnin 0) as [E0|N0]; [unfold lines_passes; rewrite E0; reflexivity|].
  assert (forall j, j <= burnin -> List.length (firstn j E) = j) as HL by (intros; apply firstn_length_le; lia).
  unfold lines_passes. rewrite flat_map_last; [|lia|].
  - rewrite Nat.add_0_l, from_app, hot_lines by (rewrite HL; lia). cbn [lines_from]. rewrite ram_lines, !HL by lia. rewrite Nat.eqb_refl, (proj2 (Nat.eqb_neq burnin M)) by lia.
    rewrite app_nil_r, hot_len. rewrite seq_S, map_app. cbn [map]. rewrite !Nat.add_0_l. f_equal.
  - intros j Hj. rewrite from_app, hot_lines by (rewrite HL; lia). cbn [lines_from]. rewrite ram_lines, !HL by lia.
    rewrite (proj2 (Nat.eqb_neq j burnin)), (proj2 (Nat.eqb_neq j M)) by lia. rewrite app_nil_r. clear. induction (seq 0 n); [reflexivity|]. cbn. exact IHl.
Qed.
Lemma sampling_lines E : burnin < M -> M = List.length E -> lines_passes A ss E burnin (M - burnin) =
  map (fun k => LExch (arate (accepted (2 * k + 1) E) M)) (seq 0 n).
Proof.
  intros HM HE. assert (forall j, j <= M -> List.length (firstn j E) = j) as HL by (intros; apply firstn_length_le; lia).
  unfold lines_passes. rewrite flat_map_last; [|lia|].
  - replace (burnin + (M - burnin)) with M by lia. rewrite firstn_all2 by lia. rewrite from_app, hot_lines by lia. cbn [lines_from]. rewrite ram_lines, <- HE.
    rewrite Nat.eqb_refl, (proj2 (Nat.eqb_neq M burnin)) by lia. rewrite !app_nil_r.
    erewrite (flat_map_ext _ (fun k => [LExch (arate (accepted (2 * k + 1) E) M)])); [apply (flat_map_single (fun k => LExch _))|]. intros k. reflexivity.
  - intros j Hj. rewrite from_app, hot_lines by (rewrite HL; lia). cbn [lines_from]. rewrite ram_lines, !HL by lia.
    rewrite (proj2 (Nat.eqb_neq j burnin)), (proj2 (Nat.eqb_neq j M)) by lia. rewrite app_nil_r. clear. induction (seq 0 n); [reflexivity|]. cbn. exact IHl.
Qed.
End Lines.

(** C124: the runs with their output are the runs without it. *)
Lemma run_carma_erase A (R : rng A) chol X (M : methodsP R (base A X) (list (F A))) mk npar label N burnin y nw thin init v0 l0 a0 g :
  erase (run_carma_out A R chol M mk npar label N burnin y nw thin init v0 l0 a0 g) = run_carma chol M mk npar label N burnin y nw thin init v0 l0 a0 g.
Proof.
  unfold run_carma_out, run_carma. apply erase_pre. intros ws. cbv zeta. apply erase_pre. intros w0. apply erase_pre. intros r. apply erase_pre. intros st. apply erase_pre. intros [ss tr].
  rewrite <- Run_erase. destruct (Run_out A R _ M _ N burnin thin tr init _) as [[s out]| | |]; cbn [bind erase]; try reflexivity. destruct (vgetU (y_pars s) 0); reflexivity.
Qed.
Theorem C124_same_run_carma :
  forall (A : Arith) (R : rng A) (dsort : list (F A) -> option (list (F A))) (solve : list (list (cx A)) -> list (cx A) -> option (list (cx A)))
    (si : list (F A) -> option (list nat)) (chol : mat A -> option (mat A)) (fuel N burnin : nat) (t y e : list (F A)) (p q nw : nat) (z : bool)
    (thin : nat) (init : list (F A)) (raw : kfp A) (v0 : list (F A)) (l0 a0 : F A) (g : gen R),
  erase (RunCarmaSampler_out A R dsort solve si chol fuel N burnin t y e p q nw z thin init raw v0 l0 a0 g) =
  RunCarmaSampler dsort solve si chol fuel N burnin t y e p q nw z thin init raw v0 l0 a0 g.
Proof.
  intros. unfold RunCarmaSampler_out, RunCarmaSampler. destruct (p <? 2); [reflexivity|]. destruct z; [apply run_carma_erase|]. destruct (q =? 0); apply run_carma_erase.
Qed.
Print Assumptions C124_same_run_carma.
Theorem C124_same_run_car1 :
  forall (A : Arith) (R : rng A) (vsort : list (F A) -> option (list (F A))) (si : list (F A) -> option (list nat)) (chol : mat A -> option (mat A))
    (N burnin : nat) (t y e : list (F A)) (thin : nat) (init : list (F A)) (raw : kf1 A) (v0 : list (F A)) (l0 a0 : F A) (g : gen R),
  erase (RunCar1Sampler_out A R vsort si chol N burnin t y e thin init raw v0 l0 a0 g) = RunCar1Sampler vsort si chol N burnin t y e thin init raw v0 l0 a0 g.
Proof.
  intros A R vsort si chol N burnin t y e thin init raw v0 l0 a0 g. unfold RunCar1Sampler_out, RunCar1Sampler. apply erase_pre. intros b. apply erase_pre. intros b1. cbv zeta. apply erase_pre. intros r. apply erase_pre. intros [ss tr].
  rewrite <- Run_erase. destruct (Run_out A R _ _ _ N burnin thin tr init _) as [[s out]| | |]; cbn [bind erase]; try reflexivity. destruct (vgetU (y_pars s) 0); reflexivity.
Qed.
Print Assumptions C124_same_run_car1.

Lemma run_carma_out_inv A (R : rng A) chol X (M : methodsP R (base A X) (list (F A))) mk npar label N burnin y nw thin init v0 l0 a0 g w g' out :
  run_carma_out A R chol M mk npar label N burnin y nw thin init v0 l0 a0 g = Ok (w, g', out) ->
  exists ws r s, 0 < nw /\ ram_new chol (prop_covar A npar y) (fdec A 1 4) burnin a0 = Ok r /\
    Run_out A R _ M (@student_draw A R) N burnin thin [(label, 0)] init (mkSys ws (hot_steps (nw - 1) r (mkExch A (Z.of_nat (burnin + thin * N)) 0 0 a0) ++ [SRam 0 r]) g) = Ok (s, out) /\
    nth_error (y_pars s) 0 = Some w /\ g' = y_gen s.
Proof.
  intros E. unfold run_carma_out in E. apply bind_Ok in E. destruct E as (ws & Ew & E). cbv zeta in E.
  apply bind_Ok in E. destruct E as (w0 & Ew0 & E). apply bind_Ok in E. destruct E as (r & Er & E).
  apply bind_Ok in E. destruct E as (st & Est & E). apply bind_Ok in E. destruct E as ([ss tr] & Es & E).
  apply bind_Ok in E. destruct E as ([s out'] & Erun & E). apply bind_Ok in E. destruct E as (w' & Ew' & E). injection E as <- <- <-.
  apply vgetU_nth in Ew0. apply vgetU_nth in Ew'.
  destruct (mk_walkers_inv Ew) as [[_ ->]|(b & b1 & Eb & Eb1 & Hws)]; [discriminate|].
  assert (st = (hot_steps (nw - 1) r (mkExch A (Z.of_nat (burnin + thin * N)) 0 0 a0), [])) as ->.
  { refine (AddSteps_untracked (ss := []) _ Est). intros i wi Hwi. rewrite Hws, nth_error_map in Hwi.
    destruct (nth_error (temp_ladder A nw) i); [|discriminate]. injection Hwi as <-. reflexivity. }
  assert (w_label w0 = label) as Hlab.
  { rewrite Hws, nth_error_map in Ew0. destruct (nth_error _ 0); [|discriminate]. injection Ew0 as <-. reflexivity. }
  cbn [AddSteps AddStep step_par] in Es. destruct ws as [|w1 ws']; [discriminate|]. injection Ew0 as ->.
  cbn [upd vgetU nth_error bind SetTracking w_track w_label track_insert] in Es. injection Es as <- <-. rewrite Hlab in Erun.
  eexists _, r, s. split.
  { destruct nw; [|lia]. unfold temp_ladder, linspace in Hws. cbn in Hws. discriminate. }
  split; [exact Er|]. split; [exact Erun|]. split; [exact Ew'|reflexivity].
Qed.
Lemma hot_fresh A n (r : ram A) e : r_niter r = 0 -> r_naccept r = 0 -> e_niter e = 0 -> e_naccept e = 0 -> Forall (fresh A) (hot_steps n r e).
Proof. intros. induction n as [|n IH]; cbn [hot_steps]; repeat constructor; assumption. Qed.

Lemma run_lines A (R : rng A) chol X (M : methodsP R (base A X) (list (F A))) mk npar label N burnin y nw thin init v0 l0 a0 g w g' out :
  run_carma_out A R chol M mk npar label N burnin y nw thin init v0 l0 a0 g = Ok (w, g', out) -> 1 <= N -> 1 <= thin ->
  exists use v y0 y1 E, List.length E = burnin + N * thin /\ decided A R _ M (@student_draw A R) y0 y1 E /\ nth_error (y_pars y1) 0 = Some w /\ g' = y_gen y1 /\
    1 <= nw /\ List.length (y_steps y0) = 2 * nw - 1 /\
    (forall k, k < nw -> exists r, nth_error (y_steps y0) (2 * k) = Some (SRam (nw - 1 - k) r)) /\
    (forall k, k < nw - 1 -> exists ex, nth_error (y_steps y0) (2 * k + 1) = Some (SExch (nw - 1 - k) ex)) /\
    out = [LSteps (2 * nw - 1); LTracked 1; if use : bool then LUser else LPriors; LInit v; LBurnin burnin] ++
      (if burnin =? 0 then [] else map (fun k => LRam (arate A (accepted (2 * k) (firstn burnin E)) burnin)) (seq 0 nw)) ++ [LSampling] ++
      map (fun k => LExch (arate A (accepted (2 * k + 1) E) (burnin + N * thin))) (seq 0 (nw - 1)).
Proof.
  intros H HN Ht. destruct (run_carma_out_inv _ _ _ _ _ _ _ _ _ _ _ _ _ _ _ _ _ _ _ _ _ H) as (ws & r & s & Hnw & Er & Erun & Hw & Hg).
  assert (r_niter r = 0 /\ r_naccept r = 0 /\ r_maxiter r = burnin) as (R1 & R2 & R3).
  { unfold ram_new in Er. destruct (chol _); [|discriminate]. injection Er as <-. cbn. auto. }
  set (ex := mkExch A (Z.of_nat (burnin + thin * N)) 0 0 a0) in *.
  apply Run_lines in Erun; [|cbn [y_steps]; apply Forall_app; split; [apply hot_fresh; trivial|repeat constructor; assumption]].
  destruct Erun as (use & v & y0 & E & HL & Hs & HD & ->). cbn [y_steps] in *.
  assert (1 <= N * thin) as HNt by nia.
  assert (e_report ex = Z.of_nat (burnin + N * thin)) as Hex by (unfold ex; cbn; lia).
  exists use, v, y0, s, E. split; [exact HL|]. split; [exact HD|]. split; [exact Hw|]. split; [exact Hg|]. split; [lia|].
  split; [rewrite Hs, app_length, hot_len; cbn; lia|]. split; [|split].
  - intros k Hk. rewrite Hs. apply step_at. lia.
  - intros k Hk. rewrite Hs. apply exch_at. exact Hk.
  - rewrite (burnin_lines A r ex burnin (burnin + N * thin) R3 Hex) by lia.
    replace (N * thin) with (burnin + N * thin - burnin) at 1 by lia. rewrite (sampling_lines A r ex burnin (burnin + N * thin) R3 Hex) by lia.
    rewrite app_length, hot_len. cbn [List.length]. replace (2 * (nw - 1) + 1) with (2 * nw - 1) by lia. replace (S (nw - 1)) with nw by lia. reflexivity.
Qed.

(** C124, CARMA runs.  With N >= 1 samples at thinning >= 1 a run has 2 nw - 1 steps; in the order of the steps, step 2k is the AdaptiveMetro of chain
    nw - 1 - k and step 2k + 1 the ExchangeStep of chains nw - 1 - k and nw - 2 - k.  [E] lists, pass by pass, the decisions of the steps by the Metropolis
    and the exchange rule.  After the line "Burning in..." and before "Sampling..." the run prints, if there is a burn-in, one line for each chain, hottest
    first, with the fraction of the moves of that chain accepted in the burn-in; after "Sampling..." it prints one line for each pair of neighbouring chains
    with the fraction of the exchanges accepted in the whole run, burn-in included.  It prints nothing else. *)
Theorem C124_carma_output :
  forall (A : Arith) (R : rng A) (dsort : list (F A) -> option (list (F A))) (solve : list (list (cx A)) -> list (cx A) -> option (list (cx A)))
    (si : list (F A) -> option (list nat)) (chol : mat A -> option (mat A)) (fuel N burnin : nat) (t y e : list (F A)) (p q nw : nat) (z : bool)
    (thin : nat) (init : list (F A)) (raw : kfp A) (v0 : list (F A)) (l0 a0 : F A) (g : gen R) w g' out,
  RunCarmaSampler_out A R dsort solve si chol fuel N burnin t y e p q nw z thin init raw v0 l0 a0 g = Ok (w, g', out) -> 1 <= N -> 1 <= thin ->
  exists use v y0 y1 E, List.length E = burnin + N * thin /\
    decided A R _ (walker_par R dsort solve fuel p q z) (@student_draw A R) y0 y1 E /\ nth_error (y_pars y1) 0 = Some w /\ g' = y_gen y1 /\
    1 <= nw /\ List.length (y_steps y0) = 2 * nw - 1 /\
    (forall k, k < nw -> exists r, nth_error (y_steps y0) (2 * k) = Some (SRam (nw - 1 - k) r)) /\
    (forall k, k < nw - 1 -> exists ex, nth_error (y_steps y0) (2 * k + 1) = Some (SExch (nw - 1 - k) ex)) /\
    out = [LSteps (2 * nw - 1); LTracked 1; if use : bool then LUser else LPriors; LInit v; LBurnin burnin] ++
      (if burnin =? 0 then [] else map (fun k => LRam (arate A (accepted (2 * k) (firstn burnin E)) burnin)) (seq 0 nw)) ++ [LSampling] ++
      map (fun k => LExch (arate A (accepted (2 * k + 1) E) (burnin + N * thin))) (seq 0 (nw - 1)).
Proof.
  intros A R dsort solve si chol fuel N burnin t y e p q nw z thin init raw v0 l0 a0 g w g' out H HN Ht. unfold RunCarmaSampler_out in H. unfold walker_par.
  destruct (p <? 2); [discriminate|]. destruct z; [exact (run_lines _ _ _ _ _ _ _ _ _ _ _ _ _ _ _ _ _ _ _ _ _ H HN Ht)|]. destruct (q =? 0); exact (run_lines _ _ _ _ _ _ _ _ _ _ _ _ _ _ _ _ _ _ _ _ _ H HN Ht).
Qed.
Print Assumptions C124_carma_output.

(** C124, CAR(1) runs: one step, one line at the end of the burn-in. *)
Theorem C124_car1_output :
  forall (A : Arith) (R : rng A) (vsort : list (F A) -> option (list (F A))) (si : list (F A) -> option (list nat)) (chol : mat A -> option (mat A))
    (N burnin : nat) (t y e : list (F A)) (thin : nat) (init : list (F A)) (raw : kf1 A) (v0 : list (F A)) (l0 a0 : F A) (g : gen R) w g' out,
  RunCar1Sampler_out A R vsort si chol N burnin t y e thin init raw v0 l0 a0 g = Ok (w, g', out) ->
  exists use v y0 y1 E r, List.length E = burnin + N * thin /\ decided A R _ (par1 R vsort) (@student_draw A R) y0 y1 E /\
    nth_error (y_pars y1) 0 = Some w /\ g' = y_gen y1 /\ y_steps y0 = [SRam 0 r] /\
    out = [LSteps 1; LTracked 1; if use : bool then LUser else LPriors; LInit v; LBurnin burnin] ++
      (if burnin =? 0 then [] else [LRam (arate A (accepted 0 (firstn burnin E)) burnin)]) ++ [LSampling].
Proof.
  intros A R vsort si chol N burnin t y e thin init raw v0 l0 a0 g w g' out H. unfold RunCar1Sampler_out in H.
  apply bind_Ok in H. destruct H as (b & _ & H). apply bind_Ok in H. destruct H as (b1 & _ & H). cbv zeta in H. apply bind_Ok in H. destruct H as (r & Er & H).
  apply bind_Ok in H. destruct H as ([ss tr] & Es & H). apply bind_Ok in H. destruct H as ([s out'] & Erun & H). apply bind_Ok in H. destruct H as (w' & Ew' & H). injection H as <- <- <-.
  apply vgetU_nth in Ew'. cbn in Es. injection Es as <- <-.
  assert (r_niter r = 0 /\ r_naccept r = 0 /\ r_maxiter r = burnin) as (R1 & R2 & R3).
  { unfold ram_new in Er. destruct (chol _); [|discriminate]. injection Er as <-. cbn. auto. }
  apply Run_lines in Erun; [|cbn [y_steps]; repeat constructor; assumption].
  destruct Erun as (use & v & y0 & E & HL & Hs & HD & ->). cbn [y_steps] in *.
  exists use, v, y0, s, E, r. split; [exact HL|]. split; [exact HD|]. split; [exact Ew'|]. split; [reflexivity|]. split; [exact Hs|].
  assert (forall j, j <= burnin + N * thin -> List.length (firstn j E) = j) as HF by (intros; apply firstn_length_le; lia).
  assert (lines_passes A [SRam 0 r] E burnin (N * thin) = []) as ->.
  { unfold lines_passes. apply flat_map_none. intros j Hj. cbn [lines_from lines_of]. rewrite HF, R3 by lia. rewrite (proj2 (Nat.eqb_neq j burnin)) by lia. reflexivity. }
  assert (lines_passes A [SRam 0 r] E 0 burnin = if burnin =? 0 then [] else [LRam (arate A (accepted 0 (firstn burnin E)) burnin)]) as ->; [|reflexivity].
  destruct (Nat.eqb_spec burnin 0) as [->|N0]; [reflexivity|]. unfold lines_passes. rewrite flat_map_last; [|lia|].
  - cbn [lines_from lines_of Nat.add]. rewrite HF, R3 by lia. rewrite Nat.eqb_refl. reflexivity.
  - intros j Hj. cbn [lines_from lines_of]. rewrite HF, R3 by lia. rewrite (proj2 (Nat.eqb_neq j burnin)) by lia. reflexivity.
Qed.
Print Assumptions C124_car1_output.

(** C124: on exact numbers a printed rate is the fraction, between 0 and 1. *)
Lemma accepted_le p E : accepted p E <= List.length E.
Proof. unfold accepted. induction E as [|d E IH]; cbn; [lia|]. destruct (nth p d false); cbn; lia. Qed.
Theorem C124_rate : forall p E, E <> [] ->
  arate AX (accepted p E) (List.length E) = Fin (INR (accepted p E) / INR (List.length E)) /\
  (0 <= INR (accepted p E) / INR (List.length E) <= 1)%R.
Proof.
  intros p E HE. assert (0 < INR (List.length E))%R as HL. { apply lt_0_INR. destruct E; [congruence|cbn; lia]. }
  pose proof (le_INR _ _ (accepted_le p E)) as H1. pose proof (pos_INR (accepted p E)) as H2. split.
  - unfold arate. cbn [fdiv fofZ AX]. unfold Arith.xdiv. rewrite <- !INR_IZR_INZ. destruct (Req_EM_T _ _) as [E0|_]; [rewrite E0 in HL; lra|]. reflexivity.
  - split; [apply Rmult_le_pos; [exact H2|left; apply Rinv_0_lt_compat, HL]|]. apply Rmult_le_reg_r with (INR (List.length E)); [exact HL|].
    unfold Rdiv. rewrite Rmult_assoc, Rinv_l by lra. lra.
Qed.
Print Assumptions C124_rate.

(** ** MetropStep *)
Section Metrop.
Variable A : Arith.
Variable R : rng A.
Variables X T Q : Type.
Variable P : methodsP R X T.
Variable draw : T -> gen R -> res (T * Q * gen R).
Variable qld : Q -> param A X T -> T -> T -> F A.
(** the decision of a step: the Metropolis-Hastings rule *)
Definition mh_decision (w : param A X T) (g : gen R) (b : bool) : Prop :=
  exists new q g1 l x, draw (w_value w) g = Ok (new, q, g1) /\ o_LogDensity P (w_obj w) new = Ok (l, x) /\
    let w1 := set_obj w x in
    let alpha := fsub A (fadd A (fsub A (fdiv A l (w_temp w)) (fdiv A (w_logpost w) (w_temp w))) (qld q w1 (w_value w) new)) (qld q w1 new (w_value w)) in
    b = ffin A alpha && flt A (fst (runiform (fofZ A 0) (fofZ A 1) g1)) (fmin A (fexp A alpha) (fofZ A 1)).
(** steps of a MetropStep, with the decision and the output of each *)
Inductive metrop_steps : metrop A -> param A X T -> gen R -> metrop A -> param A X T -> gen R -> list bool -> list (list (line (F A))) -> Prop :=
| ms_0 m w g : metrop_steps m w g m w g [] []
| ms_S m w g m1 w1 g1 m2 w2 g2 E O b l : metrop_steps m w g m1 w1 g1 E O -> mh_decision w1 g1 b ->
    metrop_step_out A R X T P draw qld m1 w1 g1 = Ok (m2, w2, g2, l) -> metrop_steps m w g m2 w2 g2 (E ++ [b]) (O ++ [l]).
Definition trues (E : list bool) : nat := List.length (filter (fun b => b) E).
Lemma trues_app E b : trues (E ++ [b]) = trues E + (if b then 1 else 0).
Proof. unfold trues. rewrite filter_app, app_length. cbn [filter]. destruct b; reflexivity. Qed.

Lemma metrop_counts m w g m' w' g' E O : m_naccept m = 0 -> m_niter m = 0 -> metrop_steps m w g m' w' g' E O ->
  let k := Z.to_nat (m_report m) in
  m_report m' = m_report m /\ m_niter m' = List.length E - since k (List.length E) /\ m_naccept m' = trues (skipn (since k (List.length E)) E) /\
  List.length O = List.length E /\
  forall i, i < List.length E -> nth i O [] = if (0 <? k) && (S i mod k =? 0) then [LMetrop (arate A (trues (skipn (S i - k) (firstn (S i) E))) k)] else [].
Proof.
  intros Ha Hn H k. induction H as [m w g|m w g m1 w1 g1 m2 w2 g2 E O b l H IH Hb E1].
  - split; [reflexivity|]. cbn [List.length]. rewrite Ha, Hn. split; [lia|]. rewrite skipn_nil. split; [reflexivity|]. split; [reflexivity|]. intros i Hi. lia.
  - destruct (IH Ha Hn) as (C1 & C2 & C3 & C4 & C5). clear IH. fold k in C2, C3, C5. pose proof (since_le k (List.length E)) as Hle.
    unfold metrop_step_out in E1. destruct Hb as (new & q & g3 & l' & x & D1 & D2 & Db). cbv zeta in Db. rewrite D1 in E1. cbn [bind] in E1.
    apply bind_Ok in E1. destruct E1 as ([[[acc m3] w3] g4] & Eacc & E1). apply bind_Ok in E1. destruct E1 as (w4 & _ & E1).
    unfold metrop_accept, LD in Eacc. rewrite D2 in Eacc. cbn [bind w_temp w_logpost set_obj] in Eacc.
    assert (acc = b /\ m_naccept m3 = m_naccept m1 /\ m_niter m3 = m_niter m1 /\ m_report m3 = m_report m1) as (-> & B2 & B3 & B4).
    { rewrite Db. clear Db. destruct (ffin A _); cbn [negb andb] in *; [|injection Eacc as <- <- _ _; auto].
      destruct (runiform _ _ g3) as [u g5]. injection Eacc as <- <- _ _. auto. }
    assert (trues (skipn (since k (List.length E)) (E ++ [b])) = if b then S (m_naccept m1) else m_naccept m1) as Hacc.
    { rewrite skipn_app. replace (since k (List.length E) - List.length E) with 0 by lia. cbn [skipn]. rewrite trues_app, <- C3. destruct b; lia. }
    rewrite B2, B3, B4, eqb_Z, C1 in E1. fold k in E1. rewrite C2 in E1. rewrite <- Hacc in E1.
    rewrite !app_length. cbn [List.length]. rewrite !Nat.add_1_r, since_S.
    destruct (Nat.eqb_spec (S (List.length E - since k (List.length E))) k) as [Ek|Nk]; injection E1 as <- _ _ <-; cbn [m_report m_niter m_naccept].
    + split; [reflexivity|]. split; [lia|]. split; [rewrite skipn_all2; [reflexivity|rewrite app_length; cbn; lia]|]. split; [lia|]. intros i Hi.
      destruct (Nat.eq_dec i (List.length E)) as [->|Ni].
      * rewrite app_nth2 by lia. rewrite C4, Nat.sub_diag. cbn [nth]. assert (0 < k) as Hk by lia. rewrite (proj2 (Nat.ltb_lt 0 k) Hk), since_report by exact Hk.
        rewrite (proj2 (Nat.eqb_eq _ _) Ek). cbn [andb]. rewrite firstn_all2 by (rewrite app_length; cbn; lia). replace (S (List.length E) - k) with (since k (List.length E)) by lia. rewrite Ek. reflexivity.
      * rewrite app_nth1 by lia. rewrite C5 by lia. rewrite firstn_snoc by lia. reflexivity.
    + split; [reflexivity|]. split; [lia|]. split; [reflexivity|]. split; [lia|]. intros i Hi.
      destruct (Nat.eq_dec i (List.length E)) as [->|Ni].
      * rewrite app_nth2 by lia. rewrite C4, Nat.sub_diag. cbn [nth]. destruct (Nat.ltb_spec 0 k) as [Hk|Hk]; [|reflexivity]. rewrite since_report by exact Hk.
        rewrite (proj2 (Nat.eqb_neq _ _) Nk). reflexivity.
      * rewrite app_nth1 by lia. rewrite C5 by lia. rewrite firstn_snoc by lia. reflexivity.
Qed.
Lemma metrop_erase m w g : erase (metrop_step_out A R X T P draw qld m w g) = metrop_step P draw qld m w g.
Proof.
  unfold metrop_step_out, metrop_step. apply erase_pre. intros [[new q] g1]. apply erase_pre. intros [[[acc m1] w1] g2]. apply erase_pre. intros w2. cbv zeta. destruct (Z.eqb _ _); reflexivity.
Qed.
End Metrop.

(** C124, MetropStep: a new step (report_iter = k) prints in its (i+1)-th call exactly when k > 0 divides i + 1, and then the fraction of the last k calls in which
    the Metropolis-Hastings rule accepted.  The step with its output is the step without it. *)
Theorem C124_metrop : forall (A : Arith) (R : rng A) X T Q (P : methodsP R X T) (draw : T -> gen R -> res (T * Q * gen R)) (qld : Q -> param A X T -> T -> T -> F A)
    (m m' : metrop A) (w w' : param A X T) (g g' : gen R) E O,
  m_naccept m = 0 -> m_niter m = 0 -> metrop_steps A R X T Q P draw qld m w g m' w' g' E O ->
  let k := Z.to_nat (m_report m) in
  List.length O = List.length E /\
  (forall i, i < List.length E -> nth i O [] = if (0 <? k) && (S i mod k =? 0) then [LMetrop (arate A (trues (skipn (S i - k) (firstn (S i) E))) k)] else []) /\
  forall m1 w1 g1, erase (metrop_step_out A R X T P draw qld m1 w1 g1) = metrop_step P draw qld m1 w1 g1.
Proof.
  intros A R X T Q P draw qld m m' w w' g g' E O Ha Hn H k. destruct (metrop_counts A R X T Q P draw qld m w g m' w' g' E O Ha Hn H) as (_ & _ & _ & H1 & H2).
  split; [exact H1|]. split; [exact H2|]. apply metrop_erase.
Qed.
Print Assumptions C124_metrop.

(** the runs of PropsEngine return, so they have an output: eleven lines for the CARMA(2,1) run with three chains, seven for the CAR(1) run *)
Example ex_output : exists ds sv si ch (raw : kfp AX) w g' out,
  RunCarmaSampler_out AX (SeedRefute.rngV 1) ds sv si ch 1 5 4 (map Fin PropsEngine.tX) (map Fin PropsEngine.yX) (map Fin [1; 1; 1]%R) 2 1 3 false 2
    (map Fin PropsEngine.thX) raw (map Fin [0; 0; 0; 0; 0; 0]%R) (Fin 0) (Fin 0) (tt, true) = Ok (w, g', out) /\ List.length out = 11.
Proof.
  destruct PropsEngine.ex_run as (ds & sv & si & ch & raw & w & g' & _ & _ & _ & _ & _ & E & _). rewrite <- C124_same_run_carma in E. apply erase_ok in E. destruct E as [out E].
  exists ds, sv, si, ch, raw, w, g', out. split; [exact E|]. apply C124_carma_output in E; [|lia|lia]. destruct E as (use & v & y0 & y1 & E & _ & _ & _ & _ & _ & _ & _ & _ & ->).
  rewrite !app_length. cbn [Nat.eqb List.length]. rewrite !map_length, !seq_length. reflexivity.
Qed.
Example ex_output1 : exists vs si ch (raw : kf1 AX) w g' out,
  RunCar1Sampler_out AX (SeedRefute.rngV 1) vs si ch 5 4 (map Fin PropsEngine.tX) (map Fin PropsEngine.yX) (map Fin [1; 1; 1]%R) 2 [] raw (map Fin [0; 0; 0; 0]%R) (Fin 0) (Fin 0) (tt, true)
    = Ok (w, g', out) /\ List.length out = 7.
Proof.
  destruct PropsEngine.ex_run1 as (vs & si & ch & raw & w & g' & _ & _ & _ & _ & E & _). rewrite <- C124_same_run_car1 in E. apply erase_ok in E. destruct E as [out E].
  exists vs, si, ch, raw, w, g', out. split; [exact E|]. apply C124_car1_output in E. destruct E as (use & v & y0 & y1 & E & r & _ & _ & _ & _ & _ & ->). reflexivity.
Qed.
(** a MetropStep with report_iter = 2 whose log-density does not change prints after its second call *)
Definition flatP : methodsP (SeedRefute.rngV 1) unit nat := mkP (R := SeedRefute.rngV 1) (fun _ _ => Ok (Fin 0, tt)) (fun _ g => Ok (0, tt, g)) (fun _ v g => Ok (v, tt, g)) (fun _ _ => Ok (Fin 0)).
Example ex_metrop : exists m' w' g' E l, metrop_steps AX (SeedRefute.rngV 1) unit nat unit flatP (fun v g => Ok (S v, tt, g)) (fun _ _ _ _ => Fin 0)
   (mkMetrop AX (Fin 0) 0 0 2) (mkW AX tt 0 (Fin 0) (Fin 1) true "x" [] []) (tt, true) m' w' g' E [[]; [LMetrop l]].
Proof.
  assert (forall m w g, exists m' w' g' b o, mh_decision AX (SeedRefute.rngV 1) unit nat unit flatP (fun v g => Ok (S v, tt, g)) (fun _ _ _ _ => Fin 0) w g b /\
    metrop_step_out AX (SeedRefute.rngV 1) unit nat flatP (fun v g => Ok (S v, tt, g)) (fun _ _ _ _ => Fin 0) m w g = Ok (m', w', g', o)) as H.
  { intros m w g.
    assert (exists r, metrop_step_out AX (SeedRefute.rngV 1) unit nat flatP (fun v g => Ok (S v, tt, g)) (fun _ _ _ _ => Fin 0) m w g = Ok r) as [[[[m' w'] g'] o] E].
    { unfold metrop_step_out, metrop_accept, LD. cbn [bind o_LogDensity flatP]. destruct (negb _).
      - cbn [bind]. destruct (Z.eqb _ _); eexists; reflexivity.
      - destruct (runiform _ _ g) as [u g1]. cbn [bind]. destruct (flt AX u _); unfold Save; cbn [bind o_Save flatP]; destruct (Z.eqb _ _); eexists; reflexivity. }
    exists m', w', g'. eexists. exists o. split; [|exact E]. unfold mh_decision. do 5 eexists. split; [reflexivity|]. split; [reflexivity|]. reflexivity. }
  destruct (H (mkMetrop AX (Fin 0) 0 0 2) (mkW AX tt 0 (Fin 0) (Fin 1) true "x" [] []) (tt, true)) as (m1 & w1 & g1 & b1 & o1 & D1 & E1).
  destruct (H m1 w1 g1) as (m2 & w2 & g2 & b2 & o2 & D2 & E2).
  assert (metrop_steps AX (SeedRefute.rngV 1) unit nat unit flatP (fun v g => Ok (S v, tt, g)) (fun _ _ _ _ => Fin 0)
   (mkMetrop AX (Fin 0) 0 0 2) (mkW AX tt 0 (Fin 0) (Fin 1) true "x" [] []) (tt, true) m2 w2 g2 [b1; b2] [o1; o2]) as HS.
  { apply (ms_S _ _ _ _ _ _ _ _ _ _ _ m1 w1 g1 _ _ _ [b1] [o1] b2 o2); [|exact D2|exact E2]. apply (ms_S _ _ _ _ _ _ _ _ _ _ _ _ _ _ _ _ _ [] [] b1 o1 (ms_0 _ _ _ _ _ _ _ _ _ _ _) D1 E1). }
  pose proof (C124_metrop _ _ _ _ _ _ _ _ (mkMetrop AX (Fin 0) 0 0 2) _ _ _ _ _ _ _ eq_refl eq_refl HS) as (_ & HO & _). exists m2, w2, g2, [b1; b2].
  pose proof (HO 0 ltac:(cbn; lia)) as H0. pose proof (HO 1 ltac:(cbn; lia)) as H1. cbn [nth] in H0, H1. change (Z.to_nat (m_report (mkMetrop AX (Fin 0) 0 0 2))) with 2 in H0, H1.
  cbn [Nat.ltb Nat.leb andb Nat.modulo Nat.divmod Nat.eqb snd Nat.sub] in H0, H1. subst o1 o2. eexists. exact HS.
Qed.
