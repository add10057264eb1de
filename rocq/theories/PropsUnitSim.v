(** C98 for Filter and Simulate: the same numbers in the new units. *)
From Coq Require Import Reals List Arith ZArith Lra Lia Bool Permutation.
From Coquelicot Require Import Complex.
From Verif Require Import Arith Res ListLemmas KFModel Spec Gauss Emb History InitProof KF1X KF1Main KF1More KF1R OUpd.
From Verif Require Import Cx KFpModel KFpProof SpecCarma CLin KFpX KFpMain KFpTop.
From Verif Require Import SimProof LogDens Sym SymTime PredLaw PySum Spectrum SpectrumTop SpecIdent IdentProof PropsIdent.
From Verif Require KF1Refute PropsKF1 PropsKFp PropsPred CarmaKernel.
Import ListNotations.
Local Open Scope R_scope.
Local Notation length := List.length.

(** the covariance matrix of a first order process with independent errors is positive definite, also with repeated times *)
Lemma ou_times_pd sig w : 0 < sig -> 0 < w -> forall t e, times_ok t e -> pd (length t) (obs_cov (ou_cov sig w) (fun i => nth i t 0) (fun i => nth i e 0)).
Proof.
  intros Hsig Hw t e Ht. set (om := [(- w, 0); (- (w + 1), 0)] : list C). set (ma := [w + 1; 1]).
  assert (stable_roots om) as Hst.
  { split; [|split].
    - constructor; [|constructor; [intros []|constructor]]. intros [E|[]]. injection E as E. lra.
    - intros z [<-|[<-|[]]]; cbn [fst]; lra.
    - intros z [<-|[<-|[]]]; [left|right; left]; unfold Cconj; cbn [fst snd]; apply C_eq; simpl; ring. }
  assert (carma_ok sig om ma) as Hm.
  { split; [exact Hst|]. split; [cbn; lia|]. split; [reflexivity|]. split; [exists 1%nat; cbn; lra|exact Hsig]. }
  destruct (car1_as_carma sig w Hw) as (Hs1 & Ec & Ep).
  assert (forall a b, carma_cov sig ma om a b = ou_cov sig w a b) as E.
  { intros a b. rewrite <- Ec. symmetry.
    refine (proj1 (psd_acv sig [1] [(- w, 0) : C] sig ma om Hs1 _ _ Hst _ _) _ _ (Rabs_pos _)); try discriminate; try (cbn; lia).
    intros f. rewrite Ep. unfold carma_psd. rewrite !Cmod_nrm2. unfold CarmaKernel.nrm2. simpl.
    pose proof (Rle_0_sqr (2 * PI * f)) as Q. unfold Rsqr in Q. set (x := 2 * PI * f) in *. set (q := x * x) in *.
    match goal with |- _ = sig * ?N / ?D => replace N with ((w + 1) * (w + 1) + q) by (unfold q; ring); replace D with ((w * w + q) * ((w + 1) * (w + 1) + q)) by (unfold q; ring) end.
    assert (0 < w * w) by (apply Rmult_lt_0_compat; assumption). assert (0 < (w + 1) * (w + 1)) by (apply Rmult_lt_0_compat; lra).
    field. split; lra. }
  pose proof (carma_times_pd sig om ma Hm t e Ht) as P. intros u Hu. specialize (P u Hu). erewrite Rsum_ext; [exact P|].
  intros i _. apply Rsum_ext. intros j _. unfold obs_cov. rewrite E. reflexivity.
Qed.

(** times and values in new units, the direction of time kept *)
Definition ntime (k s x : R) : R := k * (x + s).
Lemma new_times_map k s t : new_times false k s t = map (ntime k s) t.
Proof. unfold new_times, stretch, retime, turn. rewrite map_map. reflexivity. Qed.
Lemma rescale_map a y : rescale false a 0 y = map (fun x => a * x) y.
Proof. unfold rescale, turn. apply map_ext. intros. ring. Qed.
Lemma nth_scale a (l : list R) i : nth i (map (fun x => a * x) l) 0 = a * nth i l 0.
Proof. rewrite <- (map_nth (fun x => a * x) l 0 i). f_equal. ring. Qed.
Lemma nth_ntime k s (l : list R) i : (i < length l)%nat -> nth i (map (ntime k s) l) 0 = ntime k s (nth i l 0).
Proof. intros H. rewrite (nth_indep _ 0 (ntime k s 0)) by (rewrite map_length; exact H). apply map_nth. Qed.
Lemma ntime_lt k s a b : 0 < k -> a < b -> ntime k s a < ntime k s b.
Proof. intros Hk H. unfold ntime. apply Rmult_lt_compat_l; lra. Qed.
Lemma ntime_inj k s a b : 0 < k -> ntime k s a = ntime k s b -> a = b.
Proof. intros Hk H. unfold ntime in H. apply Rmult_eq_reg_l in H; lra. Qed.
Lemma ntime_strict k s t : 0 < k -> strictly_increasing t -> strictly_increasing (map (ntime k s) t).
Proof. intros Hk H i j Hij Hj. rewrite map_length in Hj. rewrite !nth_ntime by lia. apply ntime_lt; [exact Hk|]. apply H; lia. Qed.

Section Units.
Variables (K K' : R -> R -> R) (a k s0 : R).
Hypothesis Ha : 0 < a.
Hypothesis Hk : 0 < k.
Hypothesis HK : forall p q, K' (ntime k s0 p) (ntime k s0 q) = a * a * K p q.
Hypothesis Ksym : forall p q, K' p q = K' q p.
Hypothesis Kpd : forall t e, times_ok t e -> pd (length t) (obs_cov K' (fun i => nth i t 0) (fun i => nth i e 0)).
Local Notation T := (map (ntime k s0)).
Local Notation S := (map (fun x => a * x)).

Lemma cond_new t y e tp m v : length y = length t -> length e = length t -> cond_dist K t y e tp m v ->
  cond_dist K' (T t) (S y) (S e) (ntime k s0 tp) (a * m) (a * a * v).
Proof.
  intros Ly Le H. rewrite <- new_times_map, <- !rescale_map. exact (cond_units K K' false a k s0 t y e tp m v Hk Ly Le HK H).
Qed.
Lemma sim_new G (draw : G -> F AX * G) t y e sorted out g : length y = length t -> length e = length t ->
  sim_spec K G draw t y e sorted out g -> sim_spec K' G draw (T t) (S y) (S e) (T sorted) (S out) g.
Proof.
  intros Ly Le (L & H). split; [rewrite !map_length; exact L|]. intros i Hi. rewrite map_length in Hi.
  destruct (H i Hi) as (m & v & z & Ez & Hv & Hc & Eo). exists (a * m), (a * a * v), z. split; [exact Ez|].
  split; [apply Rmult_lt_0_compat; [apply Rmult_lt_0_compat|]; assumption|]. split.
  - rewrite !firstn_map, <- !map_app. rewrite nth_ntime by exact Hi.
    assert (S e ++ repeat 0 i = S (e ++ repeat 0 i)) as ->.
    { rewrite map_app. f_equal. clear. induction i as [|i IH]; [reflexivity|]. cbn [repeat map]. rewrite <- IH. f_equal. ring. }
    apply cond_new; [|rewrite !app_length, repeat_length, firstn_length, Le; lia|exact Hc]. rewrite !app_length, !firstn_length, Ly, L. reflexivity.
  - rewrite nth_scale, Eo. rewrite sqrt_mult_alt by (apply Rmult_le_pos; lra). rewrite sqrt_square by lra. ring.
Qed.

Lemma units_all X X' M M' P P' (s : kf AX X) (s' : kf AX X') t y e : length y = length t -> length e = length t -> strictly_increasing t ->
  answers K X M P s t y e -> answers K' X' M' P' s' (T t) (S y) (S e) ->
  (exists ml vl s1 s1', Filter M s = Ok s1 /\ Filter M' s' = Ok s1' /\ k_mean s1 = map Fin ml /\ k_var s1 = map Fin vl /\
     k_mean s1' = map Fin (S ml) /\ k_var s1' = map Fin (map (fun x => a * a * x) vl)) /\
  (forall G (draw : G -> F AX * G) (vsort : list (F AX) -> option (list (F AX))) ts (g : G),
     (forall g0, exists z, fst (draw g0) = Fin z) -> valid_vsort vsort -> NoDup ts ->
     (forall i, (i < length t)%nat -> In (nth i t 0) ts -> nth i e 0 <> 0) ->
     exists out s1 s1' g', Simulate M draw vsort s (map Fin ts) g = Ok (map Fin out, s1, g') /\
       Simulate M' draw vsort s' (map Fin (T ts)) g = Ok (map Fin (S out), s1', g')).
Proof.
  intros Ly Le Hi [(s1 & A1 & A2 & A3 & A4) _ Hs] [(s1' & B1 & B2 & B3 & B4) _ Hs']. pose proof (ntime_strict k s0 t Hk Hi) as Hi'. split.
  - assert (forall l : list (F AX), (forall i, (i < length l)%nat -> exists m, nth_error l i = Some (Fin m)) -> exists ml, l = map Fin ml) as G.
    { clear. induction l as [|x l IH]; intros H; [exists []; reflexivity|]. destruct (H 0%nat ltac:(cbn; lia)) as (m & E). cbn in E. injection E as ->.
      destruct IH as (ml & ->); [intros i Hi; exact (H (Datatypes.S i) (proj1 (Nat.succ_lt_mono _ _) Hi))|]. exists (m :: ml). reflexivity. }
    destruct (G (k_mean s1)) as (ml & Em). { intros i Hi0. destruct (A4 i ltac:(lia)) as (m & v & E & _). exists m. exact E. }
    destruct (G (k_var s1)) as (vl & Ev). { intros i Hi0. destruct (A4 i ltac:(lia)) as (m & v & _ & E & _). exists v. exact E. }
    exists ml, vl, s1, s1'. split; [exact A1|]. split; [exact B1|]. split; [exact Em|]. split; [exact Ev|].
    assert (forall i, (i < length t)%nat -> nth_error (k_mean s1') i = nth_error (map Fin (S ml) : list (F AX)) i /\ nth_error (k_var s1') i = nth_error (map Fin (map (fun x => a * a * x) vl) : list (F AX)) i) as H.
    { intros i Hi0. destruct (A4 i Hi0) as (m & v & C1 & C2 & C3). destruct (B4 i ltac:(rewrite map_length; exact Hi0)) as (m' & v' & D1 & D2 & D3).
      rewrite Em in C1. rewrite Ev in C2. rewrite nth_error_map in C1, C2.
      destruct (nth_error ml i) as [m0|] eqn:N1; [|discriminate]. destruct (nth_error vl i) as [v0|] eqn:N2; [|discriminate]. injection C1 as ->. injection C2 as ->.
      assert (a * m = m' /\ a * a * (v - nth i e 0 * nth i e 0) = v' - nth i (S e) 0 * nth i (S e) 0) as (<- & Evv).
      { refine (any_unique K' Ksym Kpd (firstn i (T t)) (firstn i (S y)) (firstn i (S e)) (nth i (T t) 0) _ _ _ _ _ _ _ D3).
        - rewrite !firstn_length, !map_length. lia.
        - apply strict_sep. intros c d Hab Hb. rewrite firstn_length, map_length in Hb. rewrite !nth_firstn_low by lia. apply Hi'; [exact Hab|rewrite map_length; lia].
        - rewrite !firstn_map, nth_ntime by exact Hi0. apply cond_new; [rewrite !firstn_length; lia|rewrite !firstn_length; lia|exact C3]. }
      rewrite nth_scale in Evv. assert (v' = a * a * v) as -> by lra.
      rewrite D1, D2, !nth_error_map, N1, N2. split; reflexivity. }
    rewrite !map_length in *. assert (@length (F AX) (map Fin ml) = length t) as L1 by (rewrite <- Em; exact A2). assert (@length (F AX) (map Fin vl) = length t) as L2 by (rewrite <- Ev; exact A3).
    change (F AX) with xr in L1, L2. rewrite map_length in L1, L2.
    split; apply (list_ext_nth _ _ (length t)); try assumption; try (change (F AX) with xr; rewrite !map_length; assumption); intros i Hi0; apply H, Hi0.
  - intros G draw vsort ts g Hd Hv Hn Hnz. destruct (Hs G draw vsort ts g Hd Hv Hn Hnz) as (so & out & u & C1 & C2 & C3 & C4).
    destruct (Hs' G draw vsort (T ts) g Hd Hv) as (so' & out' & u' & D1 & D2 & D3 & D4).
    { apply FinFun.Injective_map_NoDup; [|exact Hn]. intros x x'. apply ntime_inj, Hk. }
    { intros i Hi0 Hin. rewrite map_length in Hi0. rewrite nth_ntime in Hin by exact Hi0. apply in_map_iff in Hin. destruct Hin as (x & Ex & Hx).
      apply (ntime_inj k s0 _ _ Hk) in Ex. subst x. rewrite nth_scale. apply Rmult_integral_contrapositive_currified; [lra|]. apply Hnz; assumption. }
    assert (so' = T so) as ->.
    { apply nd_perm_eq; [apply strict_nondecreasing, D3|apply strict_nondecreasing, ntime_strict; assumption|]. transitivity (T ts); [symmetry; exact D2|apply Permutation_map, C2]. }
    rewrite (sim_unique K' Ksym Kpd G draw (T t) (S y) (S e) (T so) out' (S out) g) in D1.
    + rewrite map_length in D1. exists out, u, u', (gen_after draw (length ts) g). split; assumption.
    + rewrite !map_length. exact Le.
    + exact Hi'.
    + exact D3.
    + intros i Hi0 Hin. rewrite map_length in Hi0. rewrite nth_ntime in Hin by exact Hi0. apply in_map_iff in Hin. destruct Hin as (x & Ex & Hx).
      apply (ntime_inj k s0 _ _ Hk) in Ex. subst x. rewrite nth_scale. apply Rmult_integral_contrapositive_currified; [lra|]. apply Hnz; [exact Hi0|].
      eapply Permutation_in; [symmetry; exact C2|exact Hx].
    + exact D4.
    + apply sim_new; assumption.
Qed.
End Units.

(** C98, CAR(1): Filter and Simulate.  The times are k (t + s0), values and errors are multiplied by a > 0. *)
Theorem C98_filter_simulate1 : forall a k s0 (s s' : kf1 AX) t y e sig w, 0 < a -> 0 < k ->
  holds1 s t y e sig w ->
  holds1 s' (map (fun x => k * (x + s0)) t) (map (fun x => a * x) y) (map (fun x => a * x) e) (a * a * sig / k) (w / k) ->
  strictly_increasing t -> 0 < sig -> 0 < w ->
  (exists ml vl s1 s1', Filter (methods1 AX) s = Ok s1 /\ Filter (methods1 AX) s' = Ok s1' /\ k_mean s1 = map Fin ml /\ k_var s1 = map Fin vl /\
     k_mean s1' = map Fin (map (fun x => a * x) ml) /\ k_var s1' = map Fin (map (fun x => a * a * x) vl)) /\
  (forall G (draw : G -> F AX * G) vsort ts (g : G),
     (forall g0, exists z, fst (draw g0) = Fin z) -> valid_vsort vsort -> NoDup ts ->
     (forall i, (i < length t)%nat -> In (nth i t 0) ts -> nth i e 0 <> 0) ->
     exists out s1 s1' g', Simulate (methods1 AX) draw vsort s (map Fin ts) g = Ok (map Fin out, s1, g') /\
       Simulate (methods1 AX) draw vsort s' (map Fin (map (fun x => k * (x + s0)) ts)) g = Ok (map Fin (map (fun x => a * x) out), s1', g')).
Proof.
  intros a k s0 s s' t y e sig w Ha Hk Hs Hs' Hi Hsig Hw. destruct (holds1_lens _ _ _ _ _ _ Hs) as (Ly & Le & _ & _).
  assert (0 < a * a * sig / k) as Hsig' by (apply Rdiv_lt_0_compat; [|exact Hk]; apply Rmult_lt_0_compat; [apply Rmult_lt_0_compat|]; assumption).
  assert (0 < w / k) as Hw' by (apply Rdiv_lt_0_compat; assumption).
  refine (units_all (ou_cov sig w) (ou_cov (a * a * sig / k) (w / k)) a k s0 Ha Hk _ (ou_sym _ _) (ou_times_pd _ _ Hsig' Hw') _ _ _ _ _ _ s s' t y e Ly Le Hi
    (answers1 s t y e sig w Hs Hi Hsig Hw) (answers1 s' _ _ _ _ _ Hs' (ntime_strict k s0 t Hk Hi) Hsig' Hw')).
  intros p q. exact (ou_units false a k s0 sig w p q Hk Hw).
Qed.
Print Assumptions C98_filter_simulate1.

(** C98, CARMA: Filter and Simulate. *)
Theorem C98_filter_simulatep : forall solve solve' a k s0 (s s' : kfp AX) t y e sig om ma, valid_solve solve -> valid_solve solve' -> 0 < a -> 0 < k ->
  holdsp s t y e sig om ma ->
  holdsp s' (map (fun x => k * (x + s0)) t) (map (fun x => a * x) y) (map (fun x => a * x) e) (sig_units a k (length om) sig) (map (scl (/ k)) om) (ma_units k ma) ->
  strictly_increasing t -> carma_ok sig om ma ->
  (exists ml vl s1 s1', Filter (methodsp solve) s = Ok s1 /\ Filter (methodsp solve') s' = Ok s1' /\ k_mean s1 = map Fin ml /\ k_var s1 = map Fin vl /\
     k_mean s1' = map Fin (map (fun x => a * x) ml) /\ k_var s1' = map Fin (map (fun x => a * a * x) vl)) /\
  (forall G (draw : G -> F AX * G) vsort ts (g : G),
     (forall g0, exists z, fst (draw g0) = Fin z) -> valid_vsort vsort -> NoDup ts ->
     (forall i, (i < length t)%nat -> In (nth i t 0) ts -> nth i e 0 <> 0) ->
     exists out s1 s1' g', Simulate (methodsp solve) draw vsort s (map Fin ts) g = Ok (map Fin out, s1, g') /\
       Simulate (methodsp solve') draw vsort s' (map Fin (map (fun x => k * (x + s0)) ts)) g = Ok (map Fin (map (fun x => a * x) out), s1', g')).
Proof.
  intros solve solve' a k s0 s s' t y e sig om ma Hsv Hsv' Ha Hk Hs Hs' Hi Hm. destruct (holdsp_lens _ _ _ _ _ _ _ Hs) as (Ly & Le & _ & _).
  pose proof (carma_ok_units a k sig om ma ltac:(lra) Hk Hm) as Hm'.
  refine (units_all (carma_cov sig ma om) (carma_cov (sig_units a k (length om) sig) (ma_units k ma) (map (scl (/ k)) om)) a k s0 Ha Hk _ (carma_cov_sym _ _ _) (carma_times_pd _ _ _ Hm') _ _ _ _ _ _ s s' t y e Ly Le Hi
    (answersp solve s t y e sig om ma Hsv Hs Hi Hm) (answersp solve' s' _ _ _ _ _ _ Hsv' Hs' (ntime_strict k s0 t Hk Hi) Hm')).
  destruct Hm as (Hst & Hp & _). intros p q. exact (carma_units false a k s0 sig ma om p q Hk Hst ltac:(lia)).
Qed.
Print Assumptions C98_filter_simulatep.

(** The hypotheses are met: days into minutes, magnitudes into millimagnitudes, three measurements, one of them exact, three times to simulate. *)
Example C98_simulate_hypotheses_met : forall raw : kfp AX, exists (s s' : kf1 AX) (u u' : kfp AX),
  holds1 s [0; 1; 3] [3; -2; 5] [1; 0; 2] 2 1 /\
  holds1 s' (map (fun x => 1440 * (x + 7)) [0; 1; 3]) (map (fun x => 1000 * x) [3; -2; 5]) (map (fun x => 1000 * x) [1; 0; 2]) (1000 * 1000 * 2 / 1440) (1 / 1440) /\
  holdsp u [0; 1; 3] [3; -2; 5] [1; 0; 2] 2 PropsKFp.omE [1; 3] /\ carma_ok 2 PropsKFp.omE [1; 3] /\
  holdsp u' (map (fun x => 1440 * (x + 7)) [0; 1; 3]) (map (fun x => 1000 * x) [3; -2; 5]) (map (fun x => 1000 * x) [1; 0; 2])
    (sig_units 1000 1440 2 2) (map (scl (/ 1440)) PropsKFp.omE) (ma_units 1440 [1; 3]) /\
  strictly_increasing [0; 1; 3] /\ (exists vs, valid_vsort vs) /\ NoDup [2; 5; 0] /\
  forall i, (i < 3)%nat -> In (nth i [0; 1; 3] 0) [2; 5; 0] -> nth i [1; 0; 2] 0 <> 0.
Proof.
  intros raw. destruct valid_sort_index_exists as (si & Hsi).
  pose proof (ntime_strict 1440 7 [0; 1; 3] ltac:(lra) PropsPred.inc_013) as Hi'.
  destruct (PropsPred.build1 si KF1Refute.rawW [0; 1; 3] [3; -2; 5] [1; 0; 2] 2 1 Hsi PropsPred.inc_013 ltac:(cbn; lia) eq_refl eq_refl) as (s & _ & H).
  destruct (PropsPred.build1 si KF1Refute.rawW (map (ntime 1440 7) [0; 1; 3]) (map (fun x => 1000 * x) [3; -2; 5]) (map (fun x => 1000 * x) [1; 0; 2]) (1000 * 1000 * 2 / 1440) (1 / 1440) Hsi Hi' ltac:(cbn; lia) eq_refl eq_refl) as (s' & _ & H').
  destruct (PropsPred.buildp si raw [0; 1; 3] [3; -2; 5] [1; 0; 2] 2 PropsKFp.omE [1; 3] Hsi PropsPred.inc_013 ltac:(cbn; lia) eq_refl eq_refl eq_refl) as (u & _ & Q).
  destruct (PropsPred.buildp si raw (map (ntime 1440 7) [0; 1; 3]) (map (fun x => 1000 * x) [3; -2; 5]) (map (fun x => 1000 * x) [1; 0; 2])
    (sig_units 1000 1440 2 2) (map (scl (/ 1440)) PropsKFp.omE) (ma_units 1440 [1; 3]) Hsi Hi' ltac:(cbn; lia) eq_refl eq_refl eq_refl) as (u' & _ & Q').
  exists s, s', u, u'. split; [exact H|]. split; [exact H'|]. split; [exact Q|]. split; [exact PropsKFp.ex_carma_ok|]. split; [exact Q'|].
  split; [exact PropsPred.inc_013|]. split; [exact PropsKF1.ex_valid_vsort|]. split.
  - repeat (constructor; [cbn; intros E; lra|]). constructor.
  - intros [|[|[|i]]] Hi Hin; cbn in *; lra || lia.
Qed.
