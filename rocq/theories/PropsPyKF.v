(** Property theorems about the Python class KalmanFilterDeprecated (C75-C78). *)
From Coq Require Import Reals List Arith ZArith Lra Lia Bool Permutation.
From Coquelicot Require Import Complex.
From Verif Require Import Arith Res ListLemmas KFModel KF1Proof Spec Gauss Emb KF1R History InitProof SimProof KF1Main KF1More KF1Hist.
From Verif Require Import Cx KFpModel KFpProof SpecCarma KFpX KFpMain KFpTop KFpMore PyKFModel PyKFProof PyKFTop PyKFSim PropsKFp.
Import ListNotations.
Local Open Scope R_scope.

(** C75: from the constructor on, filter returns the exact one-step predictions; the error bars of the specification
    are the square roots of the variances given to the constructor, missing moving average coefficients count as 0. *)
Theorem C75_filter_exact : forall solve empty (t y v : list R) (sig : R) (om : list C) (ma : list R),
  valid_solve solve -> length y = length t -> length v = length t -> (1 <= length t)%nat -> strictly_increasing t ->
  (forall i, (i < length t)%nat -> 0 <= nth i v 0) ->
  stable_roots om -> (2 <= length om)%nat -> (length ma <= length om)%nat -> (exists c, In c ma /\ c <> 0) -> 0 < sig ->
  exists d ml vl d',
    d_new (A := AX) (map Fin t) (map Fin y) (map Fin v) (Fin sig : F AX) (map FinC om) (map Fin ma) = Ok d /\
    d_filter solve empty d = Ok ((map Fin ml, map Fin vl), d') /\ length ml = length t /\ length vl = length t /\
    forall i, (i < length t)%nat ->
      cond_dist (carma_cov sig ma om) (firstn i t) (firstn i y) (firstn i (map sqrt v)) (nth i t 0) (nth i ml 0) (nth i vl 0 - nth i v 0) /\
      0 < nth i vl 0 <= carma_acv sig ma om 0 + nth i v 0.
Proof.
  intros solve empty t y v sig om ma Hsv Hy Hv Hn Hinc Hv0 Hst H2 Hl Hc Hsig.
  destruct (new_holdsd t y v sig om ma Hst H2 Hl Hc Hsig) as (d & E & Hd & Hok).
  destruct (d_filter_spec solve Hsv empty sig om _ Hok d t y v (map sqrt v) Hd Hy Hv Hn) as (ml & vl & d' & EF & L1 & L2 & H).
  - intros i Hi. apply (nth_er t y v); assumption.
  - apply strict_times_ok, Hinc.
  - rewrite map_length. exact Hv.
  - exists d, ml, vl, d'. split; [exact E|]. split; [exact EF|]. split; [exact L1|]. split; [exact L2|].
    intros i Hi. destruct (H i Hi) as (A1 & A2 & A3). split; [eapply cond_dist_ext; [|exact A1]; intros; apply carma_cov_pad|].
    split; [exact A2|]. specialize (A3 Hinc). rewrite carma_acv_pad in A3. exact A3.
Qed.
Print Assumptions C75_filter_exact.

(** predict, for any time after the first measurement (inside the series or after it); a measurement at the requested
    time itself must have a non-zero variance. *)
Theorem C75_predict_exact : forall solve empty (t y v : list R) (sig : R) (om : list C) (ma : list R) tp,
  valid_solve solve -> length y = length t -> length v = length t -> (1 <= length t)%nat -> strictly_increasing t ->
  (forall i, (i < length t)%nat -> 0 <= nth i v 0) ->
  stable_roots om -> (2 <= length om)%nat -> (length ma <= length om)%nat -> (exists c, In c ma /\ c <> 0) -> 0 < sig ->
  nth 0 t 0 < tp -> (forall i, (i < length t)%nat -> nth i t 0 = tp -> nth i v 0 <> 0) ->
  exists d m w d',
    d_new (A := AX) (map Fin t) (map Fin y) (map Fin v) (Fin sig : F AX) (map FinC om) (map Fin ma) = Ok d /\
    d_predict solve empty d (Fin tp : F AX) = Ok ((Fin m, Fin w), d') /\ 0 < w /\
    cond_dist (carma_cov sig ma om) t y (map sqrt v) tp m w.
Proof.
  intros solve empty t y v sig om ma tp Hsv Hy Hv Hn Hinc Hv0 Hst H2 Hl Hc Hsig Hf Hnz.
  destruct (new_holdsd t y v sig om ma Hst H2 Hl Hc Hsig) as (d & E & Hd & Hok).
  assert (forall i, (i < length t)%nat -> nth i (map sqrt v) 0 * nth i (map sqrt v) 0 = nth i v 0) as Hsq by (intros; apply (nth_er t y v); assumption).
  destruct (d_predict_cpp solve Hsv empty sig om _ Hok d t y v Hd Hy Hv Hn (map sqrt v) Hsq tp) as (m & w & d' & EP & _ & Hw & Hcd).
  - apply strict_times_ok, Hinc.
  - exact Hf.
  - intros i Hi Ei H0. apply (Hnz i Hi Ei). rewrite <- Hsq by exact Hi. rewrite H0. ring.
  - exists d, m, w, d'. split; [exact E|]. split; [exact EP|]. split; [exact Hw|].
    eapply cond_dist_ext; [|exact Hcd]. intros. apply carma_cov_pad.
Qed.
Print Assumptions C75_predict_exact.

(** Both classes give the same numbers: a C++ KalmanFilterp with error bars e and an object of the Python class with the
    variances e^2, on the same series and parameters. *)
Theorem C75_agrees_with_cpp : forall solve empty (s : kfp AX) (d : dkf AX) tr yr er sig om ma,
  valid_solve solve -> holdsp s tr yr er sig om ma -> holdsd d tr yr (map (fun e => e * e) er) sig om ma ->
  strictly_increasing tr -> carma_ok sig om ma ->
  (exists s' d', Filter (methodsp solve) s = Ok s' /\ d_filter solve empty d = Ok ((k_mean s', k_var s'), d')) /\
  (forall tp, nth 0 tr 0 < tp -> (forall i, (i < length tr)%nat -> nth i tr 0 = tp -> nth i er 0 <> 0) ->
   exists r s' d', Predictp solve s (Fin tp : F AX) = Ok (r, s') /\ d_predict solve empty d (Fin tp : F AX) = Ok (r, d')).
Proof. exact both_classes. Qed.
Print Assumptions C75_agrees_with_cpp.

(** C76: simulate with an array of distinct times after the first measurement draws from the conditional law given the
    data and the values drawn before; it uses one draw per time, sorts the caller's array, and the object has its
    data back. *)
Theorem C76_simulate_exact : forall solve empty G (draw : G -> F AX * G) np_sort (t y v : list R) (sig : R) (om : list C) (ma : list R) ts g,
  valid_solve solve -> (forall g0, exists z, fst (draw g0) = Fin z) -> valid_np_sort np_sort ->
  length y = length t -> length v = length t -> (1 <= length t)%nat -> strictly_increasing t ->
  (forall i, (i < length t)%nat -> 0 <= nth i v 0) ->
  stable_roots om -> (2 <= length om)%nat -> (length ma <= length om)%nat -> (exists c, In c ma /\ c <> 0) -> 0 < sig ->
  NoDup ts -> (forall x, In x ts -> nth 0 t 0 < x) -> (forall i, (i < length t)%nat -> In (nth i t 0) ts -> nth i v 0 <> 0) ->
  exists d sorted out d',
    d_new (A := AX) (map Fin t) (map Fin y) (map Fin v) (Fin sig : F AX) (map FinC om) (map Fin ma) = Ok d /\
    d_simulate solve empty draw np_sort d (map Fin ts) g = (d', map Fin sorted, Ok (map Fin out, gen_after draw (length ts) g)) /\
    d_time d' = map Fin t /\ d_y d' = map Fin y /\ d_yvar d' = map Fin v /\
    Permutation ts sorted /\ strictly_increasing sorted /\ length out = length ts /\
    forall k, (k < length ts)%nat -> exists m w z,
      fst (draw (gen_after draw k g)) = Fin z /\ 0 < w /\
      cond_dist (carma_cov sig ma om) (t ++ firstn k sorted) (y ++ firstn k out) (map sqrt v ++ repeat 0 k) (nth k sorted 0) m w /\
      nth k out 0 = m + sqrt w * z.
Proof.
  intros solve empty G draw np_sort t y v sig om ma ts g Hsv Hdr Hso Hy Hv Hn Hinc Hv0 Hst H2 Hl Hc Hsig Hnd Hgt Hnz.
  destruct (new_holdsd t y v sig om ma Hst H2 Hl Hc Hsig) as (d & E & Hd & Hok).
  destruct (simulated solve Hsv empty G draw Hdr sig om _ Hok d t y v Hd Hy Hv Hn Hinc Hv0 np_sort Hso ts g Hnd Hgt Hnz)
    as (sorted & out & d' & ES & Ek & Hp & Hss & Hlen & Hsp).
  exists d, sorted, out, d'. split; [exact E|]. split; [exact ES|].
  destruct Hd as (E1 & E2 & E3 & _). injection Ek as D1 D2 D3 _ _ _.
  split; [congruence|]. split; [congruence|]. split; [congruence|]. split; [exact Hp|]. split; [exact Hss|].
  rewrite (Permutation_length Hp). split; [exact Hlen|]. intros k Hk. destruct (Hsp k Hk) as (m & w & z & A1 & A2 & A3 & A4).
  exists m, w, z. split; [exact A1|]. split; [exact A2|]. split; [|exact A4].
  eapply cond_dist_ext; [|exact A3]. intros. apply carma_cov_pad.
Qed.
Print Assumptions C76_simulate_exact.

(** simulate with one time: one draw from the distribution that predict returns. *)
Theorem C76_simulate_scalar : forall solve empty G (draw : G -> F AX * G) (t y v : list R) (sig : R) (om : list C) (ma : list R) tp g z,
  valid_solve solve -> fst (draw g) = Fin z ->
  length y = length t -> length v = length t -> (1 <= length t)%nat -> strictly_increasing t ->
  (forall i, (i < length t)%nat -> 0 <= nth i v 0) ->
  stable_roots om -> (2 <= length om)%nat -> (length ma <= length om)%nat -> (exists c, In c ma /\ c <> 0) -> 0 < sig ->
  nth 0 t 0 < tp -> (forall i, (i < length t)%nat -> nth i t 0 = tp -> nth i v 0 <> 0) ->
  exists d m w d',
    d_new (A := AX) (map Fin t) (map Fin y) (map Fin v) (Fin sig : F AX) (map FinC om) (map Fin ma) = Ok d /\
    d_simulate1 solve empty draw d (Fin tp : F AX) g = Ok (Fin (m + sqrt w * z), d', snd (draw g)) /\ 0 < w /\
    cond_dist (carma_cov sig ma om) t y (map sqrt v) tp m w.
Proof.
  intros solve empty G draw t y v sig om ma tp g z Hsv Hz Hy Hv Hn Hinc Hv0 Hst H2 Hl Hc Hsig Hf Hnz.
  destruct (C75_predict_exact solve empty t y v sig om ma tp Hsv Hy Hv Hn Hinc Hv0 Hst H2 Hl Hc Hsig Hf Hnz) as (d & m & w & d' & E & EP & Hw & Hcd).
  exists d, m, w, d'. split; [exact E|]. split; [|split; assumption].
  unfold d_simulate1. rewrite EP. cbn [bind]. unfold np_normal. destruct (draw g) as [x g']. cbn [fst] in Hz. subst x. cbn [snd].
  cbn [fsqrt AX]. rewrite fin_sqrt by lra. reflexivity.
Qed.
Print Assumptions C76_simulate_scalar.

(** Whatever the arithmetic, data and requested times: a simulate call that returns leaves time, y, yvar and the
    parameters as they were. *)
Theorem C76_simulate_restores : forall (A : Arith) solve empty G (draw : G -> F A * G) np_sort d ts g d' arr r,
  d_simulate solve empty draw np_sort d ts g = (d', arr, Ok r) ->
  d_time d' = d_time d /\ d_y d' = d_y d /\ d_yvar d' = d_yvar d /\ d_sig d' = d_sig d /\ d_roots d' = d_roots d /\ d_ma d' = d_ma d.
Proof.
  intros A solve empty G draw np_sort d ts g d' arr r H. apply simulate_keeps in H. injection H as H1 H2 H3 H4 H5 H6. auto 10.
Qed.
Print Assumptions C76_simulate_restores.

(** C77: simulate does not restore the data when it does not complete.  A not-a-number among the requested times is
    sorted last: every other value has been drawn and inserted by then, the call raises, and the object keeps the
    simulated values as measurements. *)
Theorem C77_interrupted_simulate : forall solve empty G (draw : G -> F AX * G) np_sort (d : dkf AX) tr yr vr sig om ma (l : list (F AX)) ts k g,
  valid_solve solve -> (forall g0, exists z, fst (draw g0) = Fin z) -> valid_np_sort np_sort ->
  holdsd d tr yr vr sig om ma -> carma_ok sig om ma -> length yr = length tr -> length vr = length tr -> (1 <= length tr)%nat ->
  strictly_increasing tr -> (forall i, (i < length tr)%nat -> 0 <= nth i vr 0) ->
  Permutation l (map Fin ts ++ repeat NaN (S k)) ->
  NoDup ts -> (forall x, In x ts -> nth 0 tr 0 < x) -> (forall i, (i < length tr)%nat -> In (nth i tr 0) ts -> nth i vr 0 <> 0) ->
  exists sorted d', d_simulate solve empty draw np_sort d l g = (d', map Fin sorted ++ repeat NaN (S k), Throw Elogic) /\
    length (d_time d') = (length tr + length ts)%nat /\ length (d_y d') = (length tr + length ts)%nat /\
    length (d_yvar d') = (length tr + length ts)%nat.
Proof.
  intros solve empty G draw np_sort d tr yr vr sig om ma l ts k g Hsv Hdr Hso Hd Hok Hy Hv Hn Hinc Hv0.
  exact (interrupted solve Hsv empty G draw Hdr sig om ma Hok d tr yr vr Hd Hy Hv Hn Hinc Hv0 np_sort Hso ts k g l).
Qed.
Print Assumptions C77_interrupted_simulate.

Definition dE : dkf AX := mkD (A := AX) (map Fin [0; 1]) (map Fin [5; 6]) (map Fin [1; 1]) (Fin 2 : F AX) (map FinC omE) (map Fin [1; 3]) [] [] [] [] [] [] (Fin 0 : F AX) 0.
Lemma dE_holds : holdsd dE [0; 1] [5; 6] [1; 1] 2 omE [1; 3].
Proof. unfold holdsd. repeat split; reflexivity. Qed.
Lemma inc01 : strictly_increasing [0; 1].
Proof. intros i j Hij Hj. simpl in Hj. destruct j as [|[|j]]; destruct i as [|i]; simpl; try lia; lra. Qed.
Lemma var11 : forall i, (i < 2)%nat -> 0 <= nth i [1; 1] 0.
Proof. intros [|[|i]] H; simpl; try lra; lia. Qed.

(** The claim that simulate leaves the data alone whatever happens is false. *)
Theorem C77_always_restores_refuted : exists solve empty (draw : unit -> F AX * unit) np_sort (d : dkf AX) ts,
  valid_solve solve /\ valid_np_sort np_sort /\ holdsd d [0; 1] [5; 6] [1; 1] 2 omE [1; 3] /\ carma_ok 2 omE [1; 3] /\
  exists d' arr e, d_simulate solve empty draw np_sort d ts tt = (d', arr, Throw e) /\ d_time d' <> d_time d.
Proof.
  destruct valid_solve_exists as [sv Hsv]. destruct valid_np_sort_exists as [so Hso].
  exists sv, (fun _ => Fin 0), (fun u => (Fin 0, u)), so, dE, [Fin 2; NaN].
  split; [exact Hsv|]. split; [exact Hso|]. split; [exact dE_holds|]. split; [exact ex_carma_ok|].
  destruct (C77_interrupted_simulate sv (fun _ => Fin 0) unit (fun u => (Fin 0, u)) so dE [0; 1] [5; 6] [1; 1] 2 omE [1; 3] [Fin 2; NaN] [2] 0 tt Hsv)
    as (sorted & d' & E & L & _); try exact Hso; try exact dE_holds; try exact ex_carma_ok; try reflexivity; try exact inc01; try exact var11.
  - intros g0. exists 0. reflexivity.
  - simpl. lia.
  - repeat constructor. intros [].
  - intros x [<-|[]]. simpl. lra.
  - intros i Hi _. destruct i as [|[|i]]; cbn [length nth] in *; [lra|lra|lia].
  - exists d'. eexists. exists Elogic. split; [exact E|]. intros H. rewrite H in L. simpl in L. discriminate.
Qed.
Print Assumptions C77_always_restores_refuted.

(** No value before or at the first measurement: predict raises, where KalmanFilterp predicts backwards (C18). *)
Theorem C77_no_backcast : forall solve empty (d : dkf AX) tr yr vr sig om ma t,
  valid_solve solve -> holdsd d tr yr vr sig om ma -> carma_ok sig om ma -> length yr = length tr -> length vr = length tr ->
  (1 <= length tr)%nat -> strictly_increasing tr -> t <= nth 0 tr 0 -> d_predict solve empty d (Fin t : F AX) = Throw Elogic.
Proof.
  intros solve empty d tr yr vr sig om ma t Hsv Hd Hok Hy Hv Hn Hinc.
  exact (no_backcast solve Hsv empty sig om ma Hok d tr yr vr Hd Hy Hv Hn Hinc t).
Qed.
Print Assumptions C77_no_backcast.

(** The order: the constructor raises exactly when there are more moving average coefficients than roots; with fewer
    than two roots the constructor accepts, and every later call raises. *)
Theorem C77_orders : forall (A : Arith) solve empty G (draw : G -> F A * G) np_sort (t y v : list (F A)) (sig : F A) (roots : list (cx A)) (ma : list (F A)),
  (d_new t y v sig roots ma = Throw Elogic <-> (length roots < length ma)%nat) /\
  (forall d, d_new t y v sig roots ma = Ok d -> (length roots < 2)%nat ->
    d_reset solve empty d = Throw Elogic /\ d_filter solve empty d = Throw Elogic /\
    (forall x, d_predict solve empty d x = Throw Elogic) /\ (forall x g, d_simulate1 solve empty draw d x g = Throw Elogic) /\
    (forall ts g, np_sort ts <> [] -> snd (d_simulate solve empty draw np_sort d ts g) = Throw Elogic)).
Proof.
  intros A solve empty G draw np_sort t y v sig roots ma. unfold d_new. destruct (Nat.ltb_spec (length roots) (length ma)) as [H|H].
  - split; [tauto|discriminate].
  - split; [split; [discriminate|lia]|]. intros d E Hp. injection E as E.
    assert (length (d_roots d) < 2)%nat as Hr by (rewrite <- E; exact Hp).
    destruct (small_p A solve empty G draw d Hr) as (A1 & A2 & A3 & A4 & A5). split; [exact A1|]. split; [exact A2|]. split; [exact A3|].
    split; [exact A4|]. exact (A5 np_sort).
Qed.
Print Assumptions C77_orders.

(** C78: after any sequence of calls that returned, in any arithmetic, every method gives what it gives on a new object
    with the same data. *)
Theorem C78_history_independent : forall (A : Arith) solve empty G (draw : G -> F A * G) np_sort (t y v : list (F A)) (sig : F A) (roots : list (cx A)) (ma : list (F A)) fresh l g0 d g,
  d_new t y v sig roots ma = Ok fresh ->
  run_dcalls A solve empty G draw np_sort l (fresh, g0) = Ok (d, g) ->
  d_time d = t /\ d_y d = y /\ d_yvar d = v /\
  d_filter solve empty d = d_filter solve empty fresh /\
  (forall x, d_predict solve empty d x = d_predict solve empty fresh x) /\
  (forall x g', d_simulate1 solve empty draw d x g' = d_simulate1 solve empty draw fresh x g') /\
  (forall ts g', snd (d_simulate solve empty draw np_sort d ts g') = snd (d_simulate solve empty draw np_sort fresh ts g') /\
                 snd (fst (d_simulate solve empty draw np_sort d ts g')) = snd (fst (d_simulate solve empty draw np_sort fresh ts g'))).
Proof.
  intros A solve empty G draw np_sort t y v sig roots ma fresh l g0 d g Hn Hr.
  pose proof (run_dcalls_data A solve empty G draw np_sort l fresh g0 d g Hr) as Hd.
  assert (d_time fresh = t /\ d_y fresh = y /\ d_yvar fresh = v) as (F1 & F2 & F3).
  { unfold d_new in Hn. destruct (length roots <? length ma)%nat; [discriminate|]. injection Hn as <-. auto. }
  assert (d_time d = t /\ d_y d = y /\ d_yvar d = v) as (D1 & D2 & D3) by (injection Hd as -> -> -> _ _ _; auto).
  split; [exact D1|]. split; [exact D2|]. split; [exact D3|]. split; [apply d_filter_data, Hd|].
  split; [intros; apply d_predict_data, Hd|].
  split; [intros; unfold d_simulate1; rewrite (d_predict_data solve empty x Hd); reflexivity|].
  intros ts g'. destruct (simulate_data A solve empty G draw np_sort d fresh ts g' Hd) as (H1 & H2 & _). split; assumption.
Qed.
Print Assumptions C78_history_independent.

(** ** The hypotheses are met *)
Example ex_np_sort : exists s, valid_np_sort s.
Proof. exact valid_np_sort_exists. Qed.

(** two measurements; one predicted time between them and one after, one moving average coefficient *)
Example ex_predict_and_simulate : forall solve np_sort, valid_solve solve -> valid_np_sort np_sort ->
  exists d out d', d_new (A := AX) (map Fin [0; 1]) (map Fin [5; 6]) (map Fin [1; 1]) (Fin 2 : F AX) (map FinC omE) (map Fin [1]) = Ok d /\
  d_simulate solve (fun _ => Fin 0) (fun g : nat => (Fin (INR g), S g)) np_sort d (map Fin [2; 1/2]) 7%nat = (d', map Fin [1/2; 2], Ok (map Fin out, 9%nat)).
Proof.
  intros solve np_sort Hsv Hso.
  destruct (C76_simulate_exact solve (fun _ => Fin 0) nat (fun g : nat => (Fin (INR g), S g)) np_sort [0; 1] [5; 6] [1; 1] 2 omE [1] [2; 1/2] 7%nat)
    as (d & sorted & out & d' & E & ES & _ & _ & _ & Hp & Hss & _ & _); try assumption; try reflexivity; try exact inc01; try exact var11; try exact ex_stable; try lra; try (simpl; lia).
  - intros g0. exists (INR g0). reflexivity.
  - exists 1. split; [left; reflexivity|lra].
  - constructor; [intros [H|[]]; lra|]. repeat constructor. intros [].
  - intros x [<-|[<-|[]]]; simpl; lra.
  - intros i Hi _. destruct i as [|[|i]]; cbn [length nth] in *; [lra|lra|lia].
  - assert (sorted = [1/2; 2]) as ->.
    { pose proof (Permutation_length Hp) as Hl. destruct sorted as [|a [|b [|c r]]]; try discriminate Hl.
      pose proof (Hss 0%nat 1%nat ltac:(lia) ltac:(simpl; lia)) as Hab. simpl in Hab.
      apply Permutation_length_2 in Hp. destruct Hp as [[<- <-]|[<- <-]]; [lra|reflexivity]. }
    exists d, out, d'. split; [exact E|exact ES].
Qed.
