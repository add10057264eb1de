(** Whole runs of the samplers under a change of the origin or direction of time and of the origin of the measured values. *)
From Coq Require Import Reals List Arith ZArith Bool String Lra Lia Permutation.
From Coquelicot Require Import Complex.
From Verif Require Import DetUniq.
From Verif Require Import Arith Res ListLemmas KFModel KF1Proof Spec Gauss Emb History InitProof OUpd SimProof KF1R KF1X KF1Main KF1More.
From Verif Require Import Cx KFpModel KFpProof KFpX KFpMain KFpTop SpecModel CarpackModel RootsProof PriorProof LogLikProof LogLikMain CarpackTop CarpackRefute.
From Verif Require Import EngineModel StartModel EngineSpec EngineProof EngineInv CholProof RamProof EngineHist EngineClass EngineDriver EngineTop StartProof TotalProof TotalClass TotalTop EngineAX Start1Proof SeedProof EngineRuns SeedRefute EngineReal Sym ShiftProof ShiftTop StartLaw.
Import ListNotations.
Local Open Scope R_scope.

Set Implicit Arguments.
Unset Strict Implicit.
Local Notation length := List.length.

(** ** The gaps between the times *)
Lemma diffs_retime back s (t : list R) : Permutation (diffs AR t) (diffs AR (retime back s t)).
Proof.
  assert (length (diffs AR t) = length t - 1)%nat as L by apply dlen. assert (length (diffs AR (retime back s t)) = length t - 1)%nat as L' by (rewrite <- (retime_len back s t); apply dlen).
  assert (diffs AR (retime back s t) = turn back (diffs AR t)) as ->; [|destruct back; [apply Permutation_rev|apply Permutation_refl]].
  apply (nth_ext _ _ 0 0); [rewrite turn_len; exact (eq_trans L' (eq_sym L))|]. intros i Hi. change R with (F AR) in Hi.
  assert (i < length t - 1)%nat as Hi' by exact (eq_ind _ (fun k => (i < k)%nat) Hi _ L'). clear Hi.
  rewrite turn_nth by (refine (eq_ind_r (fun k => (i < k)%nat) Hi' L)).
  refine (eq_trans (dnth (retime back s t) i ltac:(change (F AR) with R in *; rewrite retime_len; lia)) _). rewrite !retime_nth by lia. symmetry. destruct back; cbn [back_idx].
  - refine (eq_trans (f_equal (fun k => nth (k - 1 - i) (diffs AR t) 0) L) _). refine (eq_trans (dnth t (length t - 1 - 1 - i) ltac:(change (F AR) with R in *; lia)) _).
    replace (length t - 1 - i)%nat with (S (length t - 1 - 1 - i)) by lia. replace (length t - 1 - S i)%nat with (length t - 1 - 1 - i)%nat by lia. match goal with |- ?a = ?b => change (@eq R a b) end. ring.
  - refine (eq_trans (dnth t i ltac:(change (F AR) with R in *; lia)) _). match goal with |- ?a = ?b => change (@eq R a b) end. ring.
Qed.
Lemma vmedian_perm vsort (d d' : list R) : valid_vsort vsort -> Permutation d d' -> vmedian AX vsort (map Fin d') = vmedian AX vsort (map Fin d).
Proof.
  intros Hvs Hp. destruct (Hvs d) as (l & El & Pl & Sl). destruct (Hvs d') as (l' & El' & Pl' & Sl').
  assert (l' = l) as -> by (apply sorted_unique; [|exact Sl'|exact Sl]; exact (Permutation_trans (Permutation_sym Pl') (Permutation_trans (Permutation_sym Hp) Pl))).
  unfold vmedian. change (F AX) with xr in *. rewrite El, El', !map_length, (Permutation_length Hp).
  destruct d as [|x d]; [apply Permutation_nil in Hp; subst d'; reflexivity|]. destruct d' as [|x' d']; [apply Permutation_sym, Permutation_nil in Hp; discriminate|]. reflexivity.
Qed.
(** ** The population variance *)
Lemma pvar_rescale back c (y : list R) : y <> [] -> pvar (rescale back 1 c y) = pvar y.
Proof.
  intros Hy. unfold pvar. rewrite smean_rescale by exact Hy. rewrite rescale_len. f_equal.
  rewrite <- (Rsum_reorder (fun i => (nth i y 0 - smean y) ^ 2) (length y) (back_idx back (length y)) (back_idx back (length y)) (back_reorders back (length y))).
  apply Rsum_ext. intros i Hi. rewrite rescale_nth by exact Hi. ring.
Qed.

Lemma bounds_moved back c s t y smax fmin fmax : (2 <= length t)%nat -> length y = length t ->
  run_bounds t y smax fmin fmax -> run_bounds (retime back s t) (rescale back 1 c y) smax fmin fmax.
Proof.
  intros Hn Hy (A1 & A2 & A3 & (i & Hi & A4) & A5). split; [|split; [exact A2|]; split; [|split]].
  - rewrite pvar_rescale by (intros Q; rewrite Q in Hy; cbn in Hy; lia). exact A1.
  - intros j Hj. rewrite retime_len in Hj. rewrite !retime_nth by lia. destruct back; cbn [back_idx].
    + pose proof (A3 (length t - 1 - S j)%nat ltac:(lia)) as Q. replace (S (length t - 1 - S j)) with (length t - 1 - j)%nat in Q by lia. lra.
    + pose proof (A3 j Hj). lra.
  - exists (if back then length t - 1 - S i else i)%nat. rewrite retime_len. split; [destruct back; lia|]. rewrite !retime_nth by (destruct back; lia).
    rewrite A4. destruct back; cbn [back_idx]; [|ring]. replace (length t - 1 - S (length t - 1 - S i))%nat with i by lia. replace (length t - 1 - (length t - 1 - S i))%nat with (S i) by lia. ring.
  - rewrite retime_len, !retime_nth by lia. rewrite A5. destruct back; cbn [back_idx].
    + replace (length t - 1 - (length t - 1))%nat with 0%nat by lia. replace (length t - 1 - 0)%nat with (length t - 1)%nat by lia. f_equal. ring.
    + f_equal. ring.
Qed.

(** ** CAR(1) *)
Section Car1.
Variable R0 : rng AX.
Hypothesis HR : valid_rng R0.
Hypothesis Hshift : shift_normal R0.
Variables vsort : list (F AX) -> option (list (F AX)).
Hypothesis Hvs : valid_vsort vsort.
Variables t y e : list R.
Hypothesis Hn : (2 <= length t)%nat.
Hypothesis Ht : strictly_increasing t.
Variable back : bool.
Variables c s : R.
Local Notation t' := (retime back s t).
Local Notation y' := (rescale back 1 c y).
Local Notation e' := (rescale back 1 0 e).
Variables smax fmin fmax : R.
Local Notation bd := (mkB AX (Fin smax) (Fin fmax) (Fin fmin) false).
Hypothesis HB : run_bounds t y smax fmin fmax.
Variables b0 b0' : base AX (F AX).
Hypothesis Hb0 : base_holds b0 t y e bd.
Hypothesis Hb0' : base_holds b0' t' y' e' bd.
Local Notation st := (static_of b0).
Local Notation st' := (static_of b0').
Definition RX1 (x x' : base AX (F AX)) : Prop := okb st x /\ okb st' x'.

Lemma LD1_shift x x' v l x1 : RX1 x x' -> realv 4 v -> LogDensity (car1_cls AX) x v = Ok (l, x1) ->
  exists x1', LogDensity (car1_cls AX) x' (tau c v) = Ok (l, x1') /\ RX1 x1 x1'.
Proof using All.
  intros [Hx Hx'] (th & -> & Hl) E. rewrite tau_Fin by lia.
  pose proof (base_holds_static Hb0 Hx) as B. pose proof (base_holds_static Hb0' Hx') as B'.
  destruct (sym1 back 1 c s t y e th smax fmin fmax x x') as (v & w & w' & E1 & E2); try assumption; try lra; try lia.
  { rewrite Rmult_1_l. exact B'. }
  replace (INR (length t) * ln 1) with 0 in E2 by (rewrite ln_1; ring).
  assert (lower_by 0 v = v) as Hlow by (destruct v; cbn [lower_by]; try reflexivity; rewrite Rminus_0_r; reflexivity).
  rewrite Hlow in E2. pose proof (eq_trans (eq_sym E) E1) as Q. injection Q as -> ->. exists w'. split; [exact E2|].
  split; [exact (proj2 (LD1_ok Hx E))|exact (proj2 (LD1_ok Hx' E2))].
Qed.
Lemma save1_shift x x' v : RX1 x x' -> realv 4 v -> exists l, base_save (car1_cls AX) x' (tau c v) = Ok l.
Proof using All.
  intros [_ Hx'] Hv. apply save_total; [exact (proj1 Hx')|rewrite tau_len, (proj2 (realv_inv Hv)); lia|]. intros w Hw. exact (LogPrior_total Hw).
Qed.
Lemma filter1_shift b b' om sig scale mu om' sig' scale' mu' b1 : RX1 b b' ->
  set_filter1 b om sig scale mu = Ok b1 -> exists b1', set_filter1 b' om' sig' scale' mu' = Ok b1' /\ RX1 b1 b1'.
Proof using All.
  intros [Hx Hx'] E. assert (exists b1', set_filter1 b' om' sig' scale' mu' = Ok b1') as [b1' E'].
  { unfold set_filter1.
    destruct (@load_ok _ _ _ _ (car1_cls AX) (fun x => x) (fun om (_ : list (F AX)) => om) (@good1 AX) (@good_data1 AX) (@Hset1 AX) b' sig' om' [] scale' mu' (proj1 Hx')) as (Hus & _ & _).
    pose proof (Filter1_ok (usable_wf' Hus)) as EF.
    match goal with |- context [Filter _ ?s] => change s with (load (car1_cls AX) b' sig' om' [] scale' mu') end. rewrite EF. eexists. reflexivity. }
  exists b1'. split; [exact E'|]. split; [exact (set_filter1_ok Hx E)|exact (set_filter1_ok Hx' E')].
Qed.
Lemma Start1_shift b b' g v b1 g1 : RX1 b b' -> Start1 (R := R0) vsort b g = Ok (v, b1, g1) ->
  realv 4 v /\ exists b1', Start1 (R := R0) vsort b' g = Ok (tau c v, b1', g1) /\ RX1 b1 b1'.
Proof using All.
  intros HX E. pose proof HX as [Hx Hx']. pose proof (base_holds_static Hb0 Hx) as B. pose proof (base_holds_static Hb0' Hx') as B'.
  destruct (base_holds_lens _ _ _ _ _ _ Hb0) as (Ly & Le & _). pose proof HB as (_ & Hf & Hgap & _).
  split.
  { destruct (@start1_prior R0 HR vsort Hvs t y e b smax fmin fmax B Hf Hgap g) as (sd & sc & mu & lo & med & u & bb & gg & Es' & _).
    pose proof (eq_trans (eq_sym E) Es') as Q. injection Q as -> _ _. exists [sd; sc; mu; lo]. split; reflexivity. }
  unfold Start1 in *. destruct B as (_ & Et & Ey & _ & _ & Ebd). destruct B' as (_ & Et' & Ey' & _ & _ & Ebd'). rewrite Ey, Et, Ebd in E. rewrite Ey', Et', Ebd'.
  assert (y <> []) as Hy0 by (intros Q; rewrite Q in Ly; cbn in Ly; lia).
  assert (length y' = length y) as Ly' by apply rescale_len.
  assert (y' <> []) as Hy0' by (intros Q; rewrite Q in Ly'; cbn in Ly'; lia).
  change (F AX) with xr in *. rewrite vvar_Fin in E by lia. rewrite vvar_Fin by lia. rewrite svar_rescale by lia. cbn [bind] in *.
  rewrite vmean_Fin in E by exact Hy0. rewrite vmean_Fin by exact Hy0'. rewrite smean_rescale by exact Hy0.
  assert (forall l : list R, dofs AX (map Fin l) = (Z.of_nat (length l) - 1)%Z) as Ed by (intros l; unfold dofs; change (F AX) with xr; rewrite map_length; reflexivity).
  assert (forall l : list R, nobs AX (map Fin l) = Fin (INR (length l))) as En by (intros l; unfold nobs; change (F AX) with xr; rewrite map_length, INR_IZR_INZ; reflexivity).
  rewrite Ed, En in *. rewrite Ly'. replace (1 * 1 * svar y) with (svar y) by ring. rewrite Rmult_1_l.
  destruct (sic_Fin HR (dof := (Z.of_nat (length y) - 1)%Z) (s := svar y) g) as (yv & g4 & Eyv & Hyv); [lia|apply EngineReal.svar_nonneg; lia|]. rewrite Eyv in *.
  assert (fsqrt AX (Fin yv) = Fin (sqrt yv)) as Esq by (refine (fin_sqrt _ _); exact Hyv).
  assert (fdiv AX (fsqrt AX (Fin yv)) (Fin (INR (length y))) = Fin (sqrt yv / INR (length y))) as Edv.
  { rewrite Esq. refine (fin_div _ _ _). apply not_0_INR. lia. }
  cbv zeta in *. rewrite Edv in *.
  assert (0 <= sqrt yv / INR (length y)) as Hsd by (apply Rmult_le_pos; [apply sqrt_pos|]; left; apply Rinv_0_lt_compat, lt_0_INR; lia).
  destruct (rnorm_Fin HR (smean y) (sd := sqrt yv / INR (length y)) g4 Hsd) as (mu & g5 & Emu). rewrite Emu in E.
  assert (@rnorm AX R0 (Fin (smean y + c)) (Fin (sqrt yv / INR (length y))) g4 = (Fin (mu + c), g5)) as Emu'.
  { unfold rnorm, on_b in *. rewrite Hshift by exact Hsd. destruct (b_normal R0 (Fin (smean y)) _ (fst g4)) as [x gb]. cbn [fst snd]. injection Emu as -> <-. reflexivity. }
  rewrite Emu'. rewrite make_dt_Fin in E by exact Hn. rewrite make_dt_Fin by (rewrite retime_len; exact Hn). cbn [bind] in *.
  rewrite (vmedian_perm Hvs (diffs_retime back s t)). apply bind_Ok in E. destruct E as (med & Emed & E). change (F AX) with xr in *. rewrite Emed. cbn [bind].
  destruct (@runiform AX R0 _ _ g5) as [u g6]. destruct (draw_scale g6) as [sc g7]. apply bind_Ok in E. destruct E as (b2 & Eb2 & E). injection E as <- <- <-.
  match type of Eb2 with set_filter1 _ ?om ?sig _ _ = _ => destruct (filter1_shift om sig sc (Fin (mu + c)) HX Eb2) as (b2' & Eb2' & HX2) end.
  change (F AX) with xr in *. cbn [max_freq] in *. rewrite Eb2'. cbn [bind]. exists b2'. split; [reflexivity|exact HX2].
Qed.
Lemma SetStart1_shift x b b' g v b1 g1 : RX1 b b' -> SetStart1 (R := R0) vsort b (map Fin x) g = Ok (v, b1, g1) ->
  realv 4 v /\ exists b1', SetStart1 (R := R0) vsort b' (tau c (map Fin x)) g = Ok (tau c v, b1', g1) /\ RX1 b1 b1'.
Proof using All.
  intros HX E. unfold SetStart1 in *. change (F AX) with xr in *. rewrite tau_len. destruct (Nat.eqb_spec (length (map Fin x)) 4) as [Hl|]; cbn [negb] in *; [|exact (Start1_shift HX E)].
  rewrite map_length in Hl. assert (realv 4 (map Fin x)) as Hre by (exists x; split; [reflexivity|exact Hl]).
  apply bind_Ok in E. destruct E as ([lp b2] & EL & E). destruct (LD1_shift HX Hre EL) as (b2' & EL' & HX2). change (F AX) with xr in *. rewrite EL'. cbn [bind].
  destruct (negb (ffin AX lp)); [exact (Start1_shift HX2 E)|].
  destruct x as [|x0 [|x1 [|x2 [|x3 [|]]]]]; cbn [List.length] in Hl; try lia.
  cbn [map vgetU nth_error bind tau] in *. apply bind_Ok in E. destruct E as (b3 & Eb3 & E). injection E as <- <- <-.
  match type of Eb3 with set_filter1 _ ?om ?sig _ _ = _ => destruct (filter1_shift om sig (Fin x1) (xadd (Fin x2) (Fin c)) HX2 Eb3) as (b3' & Eb3' & HX3) end.
  change (F AX) with xr in *. split; [exact Hre|]. exists b3'. cbv zeta. cbn [tau]. 
  assert (forall r : res (base AX xr), r = Ok b3' -> forall h : base AX xr -> res (list xr * base AX xr * gen R0), bind r h = h b3') as Kb by (intros r -> h; reflexivity).
  split; [refine (Kb _ Eb3' _)|exact HX3].
Qed.
End Car1.

(** ** The drivers *)
Section Fwd.
Variable A : Arith.
Variable R1 : rng A.
Variable chol : mat A -> option (mat A).
Lemma mk_walkers_fwd X (mk : res (base A X)) sd v0 l0 label b b1 : mk = Ok b -> SetPrior b sd = Ok b1 ->
  forall temps, mk_walkers mk sd v0 l0 label temps = Ok (map (fun T => new_param b1 v0 l0 T false label) temps).
Proof. intros -> E temps. induction temps as [|T temps IH]; [reflexivity|]. cbn [mk_walkers map bind]. rewrite E. cbn [bind]. rewrite IH. reflexivity. Qed.
Lemma AddSteps_fwd X (ws : list (param A (base A X) (list (F A)))) l : forall ss tr,
  (forall i w, nth_error ws i = Some w -> w_track w = false) -> (forall s, In s l -> (step_par s < length ws)%nat) -> AddSteps (ss, tr) ws l = Ok (ss ++ l, tr).
Proof.
  induction l as [|s l IH]; intros ss tr H Hl; cbn [AddSteps]; [rewrite app_nil_r; reflexivity|]. unfold AddStep, vgetU. pose proof (Hl s (or_introl eq_refl)) as Hs.
  apply nth_error_Some in Hs. destruct (nth_error ws (step_par s)) as [w|] eqn:Ew; [|congruence]. cbn [bind]. rewrite (H _ _ Ew). cbn [bind].
  rewrite IH by (try exact H; intros s0 Hs0; apply Hl; right; exact Hs0). rewrite <- app_assoc. reflexivity.
Qed.
Lemma hot_par n (r : ram A) ex s : In s (hot_steps n r ex) -> (step_par s <= n)%nat.
Proof. induction n as [|n IH]; cbn [hot_steps In]; [contradiction|]. intros [<-|[<-|H]]; cbn [step_par]; [lia|lia|]. specialize (IH H). lia. Qed.
(** a run once the walkers are built *)
Lemma run_carma_fwd X (M : methodsP R1 (base A X) (list (F A))) mk npar label N burnin y nw thin init v0 l0 a0 g b b1 r :
  (0 < nw)%nat -> mk = Ok b -> SetPrior b (fmul A (fofZ A 10) (fsqrt A (pop_var A y))) = Ok b1 ->
  ram_new chol (prop_covar A npar y) (fdec A 1 4) burnin a0 = Ok r ->
  run_carma chol M mk npar label N burnin y nw thin init v0 l0 a0 g =
  (s <- Run M (@student_draw A R1) N burnin thin [(label, 0%nat)] init
          (mkSys (walkers b1 v0 l0 label nw) (hot_steps (nw - 1) r (mkExch A (Z.of_nat (burnin + thin * N)) 0 0 a0) ++ [SRam 0 r]) g) ;;
   w <- vgetU (y_pars s) 0 ;; Ok (w, y_gen s)).
Proof.
  intros Hnw Emk Eb Er. unfold run_carma. rewrite (mk_walkers_fwd v0 l0 label Emk Eb). cbn [bind]. cbv zeta.
  set (ex := mkExch A (Z.of_nat (burnin + thin * N)) 0 0 a0). pose proof (temp_ladder_len A nw) as Lt.
  set (ws := map (fun T => new_param b1 v0 l0 T false label) (temp_ladder A nw)).
  assert (length ws = nw) as Lw by (unfold ws; rewrite map_length; exact Lt).
  assert (forall i w, nth_error ws i = Some w -> w_track w = false) as Hun.
  { intros i w Q. unfold ws in Q. rewrite nth_error_map in Q. destruct (nth_error (temp_ladder A nw) i); [|discriminate]. injection Q as <-. reflexivity. }
  assert (exists w0 wr, ws = w0 :: wr /\ w_label w0 = label) as (w0 & wr & Ews & Elab).
  { unfold ws. destruct (temp_ladder A nw) as [|T Tr]; [cbn in Lt; lia|]. eexists. eexists. split; reflexivity. }
  assert (vgetU ws 0 = Ok w0) as -> by (rewrite Ews; reflexivity). cbn [bind]. rewrite Er. cbn [bind].
  rewrite AddSteps_fwd; [|exact Hun|intros s Hs; apply hot_par in Hs; lia]. cbn [bind app].
  assert (walkers b1 v0 l0 label nw = upd ws 0 (SetTracking w0 true)) as -> by (unfold walkers; fold ws; rewrite Ews; reflexivity).
  rewrite Ews. cbn [upd AddSteps AddStep step_par vgetU nth_error bind SetTracking w_track w_label track_insert]. rewrite Elab. reflexivity.
Qed.
End Fwd.

(** what two runs have in common when the measured values of the second are those of the first plus c: the generator, the log-posteriors, and
    the parameters except for the mean, which differs by c *)
Definition moved_run {X} (c : R) (w w' : param AX (base AX X) (list (F AX))) : Prop :=
  w_samples w' = map (tau c) (w_samples w) /\ w_logposts w' = w_logposts w /\ w_value w' = tau c (w_value w) /\ w_logpost w' = w_logpost w.

Section Runs.
Variable R0 : rng AX.
Hypothesis HR : valid_rng R0.
Hypothesis Hshift : shift_normal R0.
Variables vsort dsort : list (F AX) -> option (list (F AX)).
Variable solve : list (list (cx AX)) -> list (cx AX) -> option (list (cx AX)).
Variable si : list (F AX) -> option (list nat).
Variable chol : mat AX -> option (mat AX).
Hypothesis Hvs : valid_vsort vsort.
Hypothesis Hds : valid_dsort dsort.
Hypothesis Hsv : valid_solve solve.
Hypothesis Hsi : valid_sort_index si.
Hypothesis Hch : valid_chol chol.
Variables t y e : list R.
Hypothesis Hy : length y = length t.
Hypothesis He : length e = length t.
Hypothesis Ht : strictly_increasing t.
Hypothesis Hne : exists a b, In a y /\ In b y /\ a <> b.
Variable back : bool.
Variables c s : R.
Local Notation t' := (retime back s t).
Local Notation y' := (rescale back 1 c y).
Local Notation e' := (rescale back 1 0 e).

Lemma Hy' : length y' = length t'. Proof using Hy. rewrite rescale_len, retime_len. exact Hy. Qed.
Lemma He' : length e' = length t'. Proof using He. rewrite rescale_len, retime_len. exact He. Qed.
Lemma Hne' : exists a b, In a y' /\ In b y' /\ a <> b.
Proof using Hne.
  destruct Hne as (a & b & Ha & Hb & Hab). exists (1 * a + c), (1 * b + c). unfold rescale.
  split; [|split; [|lra]]; apply (in_map (fun x => 1 * x + c)); destruct back; cbn [turn]; try (apply -> in_rev); assumption.
Qed.
Lemma H2 : (2 <= length t)%nat. Proof using Hy Hne. exact (two_obs Hy Hne). Qed.
Lemma Hyn : y <> []. Proof using Hne. destruct Hne as (a & _ & Ha & _). intros Q. rewrite Q in Ha. destruct Ha. Qed.
Lemma pop_var_moved : pop_var AX (map Fin y') = pop_var AX (map Fin y).
Proof using Hne Hy.
  pose proof Hyn as Hy0. assert (y' <> []) as Hy1 by (intros Q; apply (f_equal (@length R)) in Q; rewrite rescale_len in Q; exact (Hy0 (proj1 (length_zero_iff_nil y) Q))).
  rewrite !pop_var_Fin by assumption. rewrite pvar_rescale by exact Hy0. reflexivity.
Qed.
Lemma prop_covar_moved n : prop_covar AX n (map Fin y') = prop_covar AX n (map Fin y).
Proof using Hne Hy.
  unfold prop_covar, nobs. rewrite pop_var_moved. change (F AX) with xr. rewrite !map_length, rescale_len. reflexivity.
Qed.

Definition walker_label (q : nat) (z : bool) : string :=
  if z then "ZCAR(p) Parameters" else if (q =? 0)%nat then "CAR(p) Parameters" else "CARMA(p,q) Parameters".
Lemma RunCarma_eq' fuel N burnin t0 y0 e0 p q nw z thin init raw v0 l0 a0 (g : gen R0) : (2 <= p)%nat ->
  RunCarmaSampler (R := R0) dsort solve si chol fuel N burnin t0 y0 e0 p q nw z thin init raw v0 l0 a0 g =
  run_carma chol (walker_par R0 dsort solve fuel p q z) (walker_new si raw p z t0 y0 e0) (walker_dim p q z) (walker_label q z) N burnin y0 nw thin init v0 l0 a0 g.
Proof using.
  clear - R0. intros Hp. unfold RunCarmaSampler, walker_par, walker_new, walker_dim, walker_label. destruct (Nat.ltb_spec p 2) as [|_]; [lia|].
  destruct z; [|destruct (q =? 0)%nat]; reflexivity.
Qed.
Lemma walker_extra_real q z p (g : gen R0) : List.Forall isF (fst (walker_extra (A := AX) (R := R0) q z g)) /\ (length (fst (walker_extra (A := AX) (R := R0) q z g)) + p + 3 = walker_dim p q z)%nat.
Proof using HR.
  clear - HR. unfold walker_extra, walker_dim. destruct z; [split; [constructor|cbn; lia]|]. destruct (Nat.eqb_spec q 0) as [->|]; [split; [constructor|cbn; lia]|].
  destruct (StartingMA_real HR q g) as [H3 H4]. split; [exact H3|]. change (F AX) with xr in *. lia.
Qed.

Theorem carma_moved fuel N burnin p q nw z thin (init : list R) raw raw' v0 v0' l0 l0' a0 (g : gen R0) w g' :
  (Nat.even p = true \/ (3 <= length t)%nat) -> (z = true \/ (q < p)%nat) -> moves R0 (walker_dim p q z) -> length v0' = length v0 ->
  RunCarmaSampler (R := R0) dsort solve si chol fuel N burnin (map Fin t) (map Fin y) (map Fin e) p q nw z thin (map Fin init) raw v0 l0 a0 g = Ok (w, g') ->
  exists w', RunCarmaSampler (R := R0) dsort solve si chol fuel N burnin (map Fin t') (map Fin y') (map Fin e') p q nw z thin (tau c (map Fin init)) raw' v0' l0' a0 g = Ok (w', g') /\
    moved_run c w w'.
Proof using HR Hshift Hds Hsv Hsi Hch Hy He Ht Hne.
  intros Hodd Hq Hmv Hv0 E.
  destruct (RunCarma_inv E) as (b & b1 & r & _ & _ & _ & Hp & Hnw & Eb & Eb1 & Er & _).
  destruct (walker_prior Hsi Hy He Ht Hne raw z Hp) as (b2 & b12 & smax & fmin & fmax & Eb2 & Eb12 & Hb1 & HB).
  pose proof (eq_trans (eq_sym Eb) Eb2) as Q. injection Q as <-. pose proof (eq_trans (eq_sym Eb1) Eb12) as Q. injection Q as <-. clear Eb2 Eb12.
  destruct (walker_prior Hsi Hy' He' (retime_inc back s t Ht) Hne' raw' z Hp) as (b' & b1' & smax' & fmin' & fmax' & Eb' & Eb1' & Hb1' & HB').
  destruct (run_bounds_unique (bounds_moved back c s H2 Hy HB) HB') as (-> & -> & ->).
  assert (ram_new chol (prop_covar AX (walker_dim p q z) (map Fin y')) (fdec AX 1 4) burnin a0 = Ok r) as Er' by (rewrite prop_covar_moved; exact Er).
  rewrite RunCarma_eq' in E by exact Hp. rewrite RunCarma_eq' by exact Hp.
  rewrite (run_carma_fwd _ _ _ _ _ _ _ _ Hnw Eb Eb1 Er) in E. rewrite (run_carma_fwd _ _ _ _ _ _ _ _ Hnw Eb' Eb1' Er').
  apply bind_Ok in E. destruct E as (s1 & Erun & E). apply bind_Ok in E. destruct E as (w1 & Ew1 & E). injection E as <- <-.
  rewrite walker_par_eq in *. set (dim := walker_dim p q z) in *. set (C := pcls solve p (walker_ma (A := AX) p q z) (LogPrior AX)) in *.
  set (rx := RXp p b1 b1').
  assert (okt p (static_of b1) b1) as Hok.
  { assert (all_kept si (map Fin t)) as Hk by (apply kept_distinct; [exact Hsi|apply increasing_NoDup, Ht]).
    destruct (@carp_new_okt AX si raw p (map Fin t) (map Fin y) (map Fin e) b z) as (_ & Hma & _); try assumption; try (rewrite !map_length; assumption).
    destruct (SetPrior_inv Eb1) as (_ & Ek1 & _). split; [split; [exact (proj1 Hb1)|reflexivity]|]. rewrite Ek1. exact Hma. }
  assert (okt p (static_of b1') b1') as Hok'.
  { assert (all_kept si (map Fin t')) as Hk by (apply kept_distinct; [exact Hsi|apply increasing_NoDup, retime_inc, Ht]).
    destruct (@carp_new_okt AX si raw' p (map Fin t') (map Fin y') (map Fin e') b' z) as (_ & Hma & _); try assumption; try (rewrite !map_length; apply Hy' || apply He').
    destruct (SetPrior_inv Eb1') as (_ & Ek1 & _). split; [split; [exact (proj1 Hb1')|reflexivity]|]. rewrite Ek1. exact Hma. }
  destruct (@Run_shift R0 _ (parp dsort solve fuel p C (walker_extra q z) (walker_early q z) (walker_early q z) dim) (@student_draw AX R0) dim (1 / 4)) with
    (ta := tau c) (ns := True) (RX := rx) (init := map Fin init) (init' := tau c (map Fin init)) (N := N) (burnin := burnin) (thin := thin) (t := [(walker_label q z, 0%nat)])
    (y := mkSys (walkers b1 v0 l0 (walker_label q z) nw) (hot_steps (nw - 1) r (mkExch AX (Z.of_nat (burnin + thin * N)) 0 0 a0) ++ [SRam 0 r]) g)
    (y' := mkSys (walkers b1' v0' l0' (walker_label q z) nw) (hot_steps (nw - 1) r (mkExch AX (Z.of_nat (burnin + thin * N)) 0 0 a0) ++ [SRam 0 r]) g) (y1 := s1) as (s1' & Erun' & Hrel);
    cbn [o_LogDensity o_Save o_Start o_SetStart parp y_pars y_steps y_gen].
  - lra.
  - exact Hmv.
  - apply tau_len.
  - intros v s0 w0. apply vadd_tau.
  - intros x x' v l x1 HX Hv EL. exact (LD_shift HR Hshift Hds Hsv H2 Ht HB HB' Hp Hq Hodd Hb1 Hb1' HX Hv EL).
  - intros x x' v HX Hv. exact (save_shift HR Hshift Hds Hsv H2 Ht HB HB' Hp Hq Hodd Hb1 Hb1' HX Hv).
  - intros x x' g0 v x1 g1 _ HX Es. exact (start_while_shift HR Hshift Hds Hsv H2 Ht HB HB' Hp Hq Hodd Hb1 Hb1' (walker_extra_real q z p) HX Es).
  - apply tau_len.
  - intros x x' g0 v x1 g1 HX Es. exact (set_start_shift HR Hshift Hds Hsv H2 Ht HB HB' Hp Hq Hodd Hb1 Hb1' (walker_extra_real q z p) HX Es).
  - assert (rx b1 b1') as Hrx by exact (Logic.conj Hok Hok').
    assert (forall T tr, prew (tau c) rx (SetTracking (new_param b1 v0 l0 T false (walker_label q z)) tr) (SetTracking (new_param b1' v0' l0' T false (walker_label q z)) tr)) as K.
    { intros T tr. split; [exact Hrx|]. split; [reflexivity|]. split; [reflexivity|]. split; [reflexivity|]. split; [reflexivity|]. split; [reflexivity|exact Hv0]. }
    unfold walkers. destruct (temp_ladder AX nw) as [|T Ts]; cbn [map]; constructor; [apply K|].
    induction Ts as [|T1 Ts IH]; cbn [map]; constructor; [exact (K T1 false)|exact IH].
  - reflexivity.
  - reflexivity.
  - intros i r' Hin. rewrite (steps_adapt Hin). apply (ram_new_real Hch Hne (n := dim) (burnin := burnin) (a0 := a0)); [unfold dim, walker_dim; destruct z; lia|exact Er].
  - intros j Hj. apply (steps_cover (n := nw)). change (F AX) with xr in *. rewrite walkers_len in Hj. exact Hj.
  - left. exact I.
  - exact Erun.
  - change (F AX) with xr in *. rewrite Erun'. cbn [bind]. destruct Hrel as (Hw & _ & Hg & _). destruct (F2_vget Hw Ew1) as (w1' & Ew1' & Hr).
    change (F AX) with xr in *. rewrite Ew1'. cbn [bind]. exists w1'. split; [rewrite Hg; reflexivity|].
    destruct Hr as ((_ & _ & _ & _ & R1 & R2 & _) & R3 & R4). split; [exact R1|]. split; [exact R2|]. split; [exact R3|exact R4].
Qed.

Theorem car1_moved N burnin thin (init : list R) raw raw' v0 v0' l0 l0' a0 (g : gen R0) w g' : moves R0 4 -> length v0' = length v0 ->
  RunCar1Sampler (R := R0) vsort si chol N burnin (map Fin t) (map Fin y) (map Fin e) thin (map Fin init) raw v0 l0 a0 g = Ok (w, g') ->
  exists w', RunCar1Sampler (R := R0) vsort si chol N burnin (map Fin t') (map Fin y') (map Fin e') thin (tau c (map Fin init)) raw' v0' l0' a0 g = Ok (w', g') /\
    moved_run c w w'.
Proof using HR Hshift Hvs Hsi Hch Hy He Ht Hne.
  intros Hmv Hv0 E. unfold RunCar1Sampler in *.
  destruct (car1_built Hsi Hy He Ht Hne raw) as (b & fm & fM & Eb & Hb & _). destruct (set_prior_built Hy He Ht Hne Hb eq_refl) as (b1 & smax & fmin & fmax & Eb1 & Hb1 & HB).
  destruct (car1_built Hsi Hy' He' (retime_inc back s t Ht) Hne' raw') as (b' & fm' & fM' & Eb' & Hb' & _).
  destruct (set_prior_built Hy' He' (retime_inc back s t Ht) Hne' Hb' eq_refl) as (b1' & smax' & fmin' & fmax' & Eb1' & Hb1' & HB').
  destruct (run_bounds_unique (bounds_moved back c s H2 Hy HB) HB') as (-> & -> & ->).
  change (F AX) with xr in *. rewrite Eb in E. rewrite Eb'. cbn [bind] in *. rewrite Eb1 in E. rewrite Eb1'. cbn [bind] in *. cbv zeta in *.
  rewrite prop_covar_moved. apply bind_Ok in E. destruct E as (r & Er & E). change (F AX) with xr in *. rewrite Er. cbn [bind AddSteps AddStep step_par vgetU nth_error new_param w_track w_label track_insert app] in *.
  apply bind_Ok in E. destruct E as (s1 & Erun & E). apply bind_Ok in E. destruct E as (w1 & Ew1 & E). injection E as <- <-.
  assert (okb (static_of b1) b1) as Hok by (split; [exact (proj1 Hb1)|reflexivity]).
  assert (okb (static_of b1') b1') as Hok' by (split; [exact (proj1 Hb1')|reflexivity]).
  destruct (@Run_shift R0 _ (par1 R0 vsort) (@student_draw AX R0) 4%nat (1 / 4)) with
    (ta := tau c) (ns := True) (RX := RX1 b1 b1') (init := map Fin init) (init' := tau c (map Fin init)) (N := N) (burnin := burnin) (thin := thin) (t := [("CAR(1)"%string, 0%nat)])
    (y := mkSys [new_param b1 v0 l0 (fofZ AX 1) true "CAR(1)"] [SRam 0 r] g) (y' := mkSys [new_param b1' v0' l0' (fofZ AX 1) true "CAR(1)"] [SRam 0 r] g) (y1 := s1) as (s1' & Erun' & Hrel);
    cbn [o_LogDensity o_Save o_Start o_SetStart par1 y_pars y_steps y_gen].
  - lra.
  - exact Hmv.
  - apply tau_len.
  - intros v s0 w0. apply vadd_tau.
  - intros x x' v l x1 HX Hv EL. exact (LD1_shift HR Hshift Hvs H2 Ht HB Hb1 Hb1' HX Hv EL).
  - intros x x' v HX Hv. exact (save1_shift HR Hshift Hvs H2 Ht HB Hb1 Hb1' HX Hv).
  - intros x x' g0 v x1 g1 _ HX Es. exact (Start1_shift HR Hshift Hvs H2 Ht HB Hb1 Hb1' HX Es).
  - apply tau_len.
  - intros x x' g0 v x1 g1 HX Es. exact (SetStart1_shift HR Hshift Hvs H2 Ht HB Hb1 Hb1' HX Es).
  - constructor; [|constructor]. split; [exact (Logic.conj Hok Hok')|]. split; [reflexivity|]. split; [reflexivity|]. split; [reflexivity|]. split; [reflexivity|]. split; [reflexivity|exact Hv0].
  - reflexivity.
  - reflexivity.
  - intros i r' [Q|[]]. injection Q as _ <-. apply (ram_new_real Hch Hne (n := 4) (burnin := burnin) (a0 := a0)); [lia|exact Er].
  - intros j Hj. cbn in *. left. lia.
  - left. exact I.
  - exact Erun.
  - change (F AX) with xr in *. rewrite Erun'. cbn [bind]. destruct Hrel as (Hw & _ & Hg & _). destruct (F2_vget Hw Ew1) as (w1' & Ew1' & Hr).
    change (F AX) with xr in *. rewrite Ew1'. cbn [bind]. exists w1'. split; [rewrite Hg; reflexivity|].
    destruct Hr as ((_ & _ & _ & _ & R1 & R2 & _) & R3 & R4). split; [exact R1|]. split; [exact R2|]. split; [exact R3|exact R4].
Qed.
End Runs.
