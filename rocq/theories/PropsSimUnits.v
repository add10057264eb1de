(** C98 for CarmaSample.simulate and Car1Sample.simulate and for the standardised residuals of assess_fit: the same data and samples in other units. *)
From Coq Require Import Reals List Arith ZArith Lra Lia Bool Permutation.
From Coquelicot Require Import Complex.
From Verif Require Import Arith Res ListLemmas KFModel KF1Proof Spec Gauss Emb KF1R History KF1X InitProof OUpd SimProof KF1Main KF1More KF1Hist.
From Verif Require Import Cx KFpModel KFpProof SpecCarma KFpX KFpMain KFpTop KFpMore CarpackModel PyModel PyPredict PyMore PySim PyDerive IdentProof.
From Verif Require Import Sym SymTime PredLaw SpecIdent PropsIdent PropsUnitSim PropsPredUnits.
From Verif Require PyExtra PropsPy PropsKF1.
Import ListNotations.
Local Open Scope R_scope.
Local Notation length := List.length.

Section Units.
Variables (K K' : R -> R -> R) (a c k s0 : R).
Hypothesis Ha : 0 < a.
Hypothesis Hk : 0 < k.
Hypothesis HK : forall p q, K' (k * (p + s0)) (k * (q + s0)) = a * a * K p q.
Hypothesis Ksym : forall p q, K' p q = K' q p.
Hypothesis Kpd : forall t e, times_ok t e -> pd (length t) (obs_cov K' (fun i => nth i t 0) (fun i => nth i e 0)).
Local Notation T := (map (fun x => k * (x + s0))).
Local Notation S := (map (fun x => a * x)).
Local Notation U := (map (fun x => a * x + c)).

Lemma simulate_units X X' M M' P P' (s : kf AX X) (s' : kf AX X') t y e mu : length y = length t -> length e = length t -> strictly_increasing t ->
  (exists s1, Filter M s = Ok s1 /\ answers K X M P s1 t (map (fun x => x - mu) y) e) ->
  (exists s1, Filter M' s' = Ok s1 /\ answers K' X' M' P' s1 (T t) (map (fun x => x - (a * mu + c)) (U y)) (S e)) ->
  forall G (draw : G -> F AX * G) (vsort : list (F AX) -> option (list (F AX))) ts (g : G),
     (forall g0, exists z, fst (draw g0) = Fin z) -> valid_vsort vsort -> NoDup ts -> no_exact t e ts ->
     exists out g', py_simulate M draw vsort s (Fin mu : F AX) (map Fin ts) g = Ok (map Fin out, g') /\
       py_simulate M' draw vsort s' (Fin (a * mu + c) : F AX) (map Fin (T ts)) g = Ok (map Fin (U out), g').
Proof.
  intros Ly Le Hi (s1 & F1 & A1) (s1' & F1' & A1') G draw vsort ts g Hd Hv Hn Hnz. rewrite centred in A1'.
  assert (length (map (fun x => x - mu) y) = length t) as Ly' by (rewrite map_length; exact Ly).
  destruct (units_all K K' a k s0 Ha Hk HK Ksym Kpd X X' M M' P P' s1 s1' t (map (fun x => x - mu) y) e Ly' Le Hi A1 A1') as [_ HS].
  destruct (HS G draw vsort ts g Hd Hv Hn Hnz) as (out & u & u' & g' & E & E').
  exists (map (fun x => x + mu) out), g'. unfold py_simulate. rewrite F1, F1'. cbn [bind]. change (F AX) with xr in *. unfold ntime in E'. rewrite E, E'. cbn [bind].
  rewrite !map_map. split; [reflexivity|]. f_equal. f_equal. apply map_ext. intros x. change (Fin (a * x + (a * mu + c)) = Fin (a * (x + mu) + c)). f_equal. ring.
Qed.

Lemma residuals_units t y e mu r r' : length y = length t -> length e = length t -> strictly_increasing t ->
  residuals K t y e mu r -> residuals K' (T t) (U y) (S e) (a * mu + c) r' -> r' = r.
Proof.
  intros Ly Le Hi (Lr & H) (Lr' & H'). rewrite map_length in Lr', H'. apply (nth_ext _ _ 0 0); [lia|]. intros i Hi0. rewrite Lr' in Hi0.
  destruct (H i Hi0) as (m & v & Hv & Hc & ->). destruct (H' i Hi0) as (m' & v' & Hv' & Hc' & ->).
  pose proof (ntime_strict k s0 t Hk Hi) as Hi'.
  assert (a * m = m' /\ a * a * (v - nth i e 0 * nth i e 0) = v' - nth i (S e) 0 * nth i (S e) 0) as (<- & Ev).
  { rewrite centred in Hc'. refine (any_unique K' Ksym Kpd (firstn i (T t)) (firstn i (S (map (fun x => x - mu) y))) (firstn i (S e)) (nth i (T t) 0) _ _ _ _ _ _ _ Hc').
    - rewrite !firstn_length, !map_length. lia.
    - apply strict_sep. intros x z Hab Hb. rewrite firstn_length, map_length in Hb. rewrite !nth_firstn_low by lia. apply Hi'; [exact Hab|rewrite map_length; lia].
    - rewrite (firstn_map (fun x => k * (x + s0)) i t), (firstn_map (fun x => a * x) i (map (fun x => x - mu) y)), (firstn_map (fun x => a * x) i e).
      replace (nth i (T t) 0) with (ntime k s0 (nth i t 0)) by (symmetry; exact (nth_ntime k s0 t i Hi0)).
      apply (cond_new K K' a k s0 Hk HK); [rewrite !firstn_length, map_length; lia|rewrite !firstn_length; lia|exact Hc]. }
  rewrite nth_scale in Ev. assert (v' = a * a * v) as -> by lra.
  rewrite (nth_indep _ 0 (a * 0 + c)) by (rewrite map_length; lia). rewrite (map_nth (fun x => a * x + c) y 0 i).
  rewrite sqrt_mult_alt by (apply Rmult_le_pos; lra). rewrite sqrt_square by lra. apply sqrt_lt_R0 in Hv. field. split; lra.
Qed.
End Units.

Lemma filter_answersp solve s t y e sig om ma : valid_solve solve -> holdsp s t y e sig om ma -> strictly_increasing t -> carma_ok sig om ma ->
  exists s1, Filter (methodsp solve) s = Ok s1 /\ answers (carma_cov sig ma om) _ (methodsp solve) (Predictp solve) s1 t y e.
Proof.
  intros Hsv Hs Hinc Hok. pose proof Hs as (Hu & Hg & E1 & E2 & E3 & E4 & E5 & E6).
  destruct (filterp solve Hsv s t _ e sig om ma Hs Hinc Hok) as (s' & EF & _).
  destruct (pureFp solve Hu Hg) as [_ Hn]. destruct (Hn _ EF) as (Es & Hu' & Hg'). unfold setup_of in Es. injection Es as S1 S2 S3 S4 S5 S6 S7.
  exists s'. split; [exact EF|]. apply answersp; [exact Hsv| |exact Hinc|exact Hok].
  split; [exact Hu'|]. split; [exact Hg'|]. exact (Logic.conj (eq_trans S1 E1) (Logic.conj (eq_trans S3 E2) (Logic.conj (eq_trans S4 E3) (Logic.conj (eq_trans S5 E4) (Logic.conj (eq_trans S6 E5) (eq_trans S7 E6)))))).
Qed.
Lemma filter_answers1 s t y e sig w : holds1 s t y e sig w -> strictly_increasing t -> 0 < sig -> 0 < w ->
  exists s1, Filter (methods1 AX) s = Ok s1 /\ answers (ou_cov sig w) (F AX) (methods1 AX) (@Predict1 AX) s1 t y e.
Proof.
  intros Hs Hinc Hsig Hw. pose proof Hs as (Hu & E1 & E2 & E3 & E4 & E5).
  destruct (filter_c05 s t _ e sig w Hs Hinc Hsig Hw) as (s' & EF & _).
  destruct (pureF1 AX s Hu I) as [_ Hn]. destruct (Hn _ EF) as (Es & Hu' & _). unfold setup_of in Es. injection Es as S1 S2 S3 S4 S5 S6.
  exists s'. split; [exact EF|]. apply answers1; [|exact Hinc|exact Hsig|exact Hw].
  split; [exact Hu'|]. exact (Logic.conj (eq_trans S1 E1) (Logic.conj (eq_trans S3 E2) (Logic.conj (eq_trans S4 E3) (Logic.conj (eq_trans S5 E4) (eq_trans S6 E5))))).
Qed.

(** C98, CarmaSample.simulate and assess_fit: in other units, as for predict, the object simulates the same values in the new units from the same state of
    the generator, which it leaves in the same state, and its standardised residuals are the same numbers. *)
Theorem C98_sample_simulate_carma : forall solve solve' (isreal : list (cx AX) -> bool) (si : list (F AX) -> option (list nat)) (raw raw' : kfp AX) p q (t y e : list R) (rows : list (list R)) (lp : list R) a c k s0 dl,
  valid_solve solve -> valid_solve solve' -> valid_sort_index si -> 0 < a -> 0 < k ->
  strictly_increasing t -> (2 <= length t)%nat -> length y = length t -> length e = length t ->
  (2 <= p)%nat -> (q < p)%nat -> lp <> [] -> length rows = length lp ->
  (forall th, In th rows -> length th = (3 + p + q)%nat /\ nth 0 th 0 <> 0 /\ forall om : list C, ARRoots AX p (map Fin th) = Ok (map FinC om) -> NoDup om) ->
  exists s mu s' mu',
    carma_map_filter isreal si raw (map Fin t) (map Fin y) (map Fin e) q (map (map Fin) rows) (map Fin lp) = Ok (s, Fin mu) /\
    carma_map_filter isreal si raw' (map Fin (map (fun x => k * (x + s0)) t)) (map Fin (map (fun x => a * x + c) y)) (map Fin (map (fun x => a * x) e)) q
      (map (map Fin) (map (fun th => reparam a c (new_unit k p q th)) rows)) (map Fin (map (fun l => l + dl) lp)) = Ok (s', Fin mu') /\
    (forall G (draw : G -> F AX * G) (vsort : list (F AX) -> option (list (F AX))) ts (g : G),
      (forall g0, exists z, fst (draw g0) = Fin z) -> valid_vsort vsort -> NoDup ts -> no_exact t e ts ->
      exists out g', py_simulate (methodsp solve) draw vsort s (Fin mu : F AX) (map Fin ts) g = Ok (map Fin out, g') /\
        py_simulate (methodsp solve') draw vsort s' (Fin mu' : F AX) (map Fin (map (fun x => k * (x + s0)) ts)) g = Ok (map Fin (map (fun x => a * x + c) out), g')) /\
    exists r, std_residuals (methodsp solve) s (map Fin y) (Fin mu : F AX) = Ok (map Fin r) /\
      std_residuals (methodsp solve') s' (map Fin (map (fun x => a * x + c) y)) (Fin mu' : F AX) = Ok (map Fin r).
Proof.
  intros solve solve' isreal si raw raw' p q t y e rows lp a c k s0 dl Hsv Hsv' Hsi Ha Hk Hinc Ht Hy He Hp Hq Hlp Hlen Hrows.
  destruct (carma_map_units isreal si raw raw' p q t y e rows lp a c k s0 dl Hsi Ha Hk Hinc Ht Hy He Hp Hq Hlp Hlen Hrows)
    as (s & mu & s' & sig & om & ma & sig' & om' & ma' & Es & Es' & Hs & Hs' & Hok & Hok' & HK).
  pose proof (ntime_strict k s0 t Hk Hinc) as Hinc'.
  exists s, mu, s', (a * mu + c). split; [exact Es|]. split; [exact Es'|]. split.
  - exact (simulate_units _ _ a c k s0 Ha Hk HK (carma_cov_sym _ _ _) (carma_times_pd _ _ _ Hok') _ _ _ _ _ _ s s' t y e mu Hy He Hinc
      (filter_answersp solve s t _ e sig om ma Hsv Hs Hinc Hok) (filter_answersp solve' s' _ _ _ sig' om' ma' Hsv' Hs' Hinc' Hok')).
  - destruct (residualsp_holds solve Hsv s t y e sig om ma mu Hs Hinc Hok) as (r & Er & Hr).
    destruct (residualsp_holds solve' Hsv' s' _ _ _ sig' om' ma' (a * mu + c) Hs' Hinc' Hok') as (r' & Er' & Hr').
    rewrite (residuals_units _ _ a c k s0 Ha Hk HK (carma_cov_sym _ _ _) (carma_times_pd _ _ _ Hok') t y e mu r r' Hy He Hinc Hr Hr') in Er'.
    exists r. split; assumption.
Qed.
Print Assumptions C98_sample_simulate_carma.

(** C98, Car1Sample.simulate and assess_fit. *)
Theorem C98_sample_simulate_car1 : forall (si : list (F AX) -> option (list nat)) (raw raw' : kf1 AX) (t y e : list R) (rows : list (list R)) (lp : list R) a c k s0 dl,
  valid_sort_index si -> 0 < a -> 0 < k ->
  strictly_increasing t -> (2 <= length t)%nat -> length y = length t -> length e = length t -> lp <> [] -> length rows = length lp ->
  (forall th, In th rows -> length th = 4%nat /\ nth 0 th 0 <> 0) ->
  exists s mu s' mu',
    car1_map_filter si raw (map Fin t) (map Fin y) (map Fin e) (map (map Fin) rows) (map Fin lp) = Ok (s, Fin mu) /\
    car1_map_filter si raw' (map Fin (map (fun x => k * (x + s0)) t)) (map Fin (map (fun x => a * x + c) y)) (map Fin (map (fun x => a * x) e))
      (map (map Fin) (map (reparam1 a c k) rows)) (map Fin (map (fun l => l + dl) lp)) = Ok (s', Fin mu') /\
    (forall G (draw : G -> F AX * G) (vsort : list (F AX) -> option (list (F AX))) ts (g : G),
      (forall g0, exists z, fst (draw g0) = Fin z) -> valid_vsort vsort -> NoDup ts -> no_exact t e ts ->
      exists out g', py_simulate (methods1 AX) draw vsort s (Fin mu : F AX) (map Fin ts) g = Ok (map Fin out, g') /\
        py_simulate (methods1 AX) draw vsort s' (Fin mu' : F AX) (map Fin (map (fun x => k * (x + s0)) ts)) g = Ok (map Fin (map (fun x => a * x + c) out), g')) /\
    exists r, std_residuals (methods1 AX) s (map Fin y) (Fin mu : F AX) = Ok (map Fin r) /\
      std_residuals (methods1 AX) s' (map Fin (map (fun x => a * x + c) y)) (Fin mu' : F AX) = Ok (map Fin r).
Proof.
  intros si raw raw' t y e rows lp a c k s0 dl Hsi Ha Hk Hinc Ht Hy He Hlp Hlen Hrows.
  destruct (car1_map_holds si raw t y e rows lp Hsi Hinc Ht Hy He Hlp Hlen Hrows) as (i & s & Hm & Es & Hs & Hsig). cbv zeta in *.
  set (th := nth i rows []) in *. pose proof (ntime_strict k s0 t Hk Hinc) as Hinc'.
  destruct (car1_map_holds si raw' (map (fun x => k * (x + s0)) t) (map (fun x => a * x + c) y) (map (fun x => a * x) e) (map (reparam1 a c k) rows) (map (fun l => l + dl) lp)
    Hsi Hinc') as (j & s' & Hm' & Es' & Hs' & Hsig'); rewrite ?map_length; try assumption.
  { destruct lp; [contradiction|discriminate]. }
  { intros th0 Hin. apply in_map_iff in Hin as (x & <- & Hx). destruct (Hrows x Hx) as (L & N).
    destruct x as [|x0 [|x1 [|x2 [|x3 [|? ?]]]]]; try discriminate L. cbn in *. split; [reflexivity|]. apply Rmult_integral_contrapositive_currified; [lra|exact N]. }
  cbv zeta in *. apply first_max_shift in Hm'. rewrite <- (first_max_unique _ _ _ Hm Hm') in *. clear Hm' j.
  pose proof Hm as (Hi & _). destruct (Hrows th ltac:(apply nth_In; lia)) as (Lth & Nth).
  assert (nth i (map (reparam1 a c k) rows) [] = reparam1 a c k th) as Eth by (exact (map_nth (reparam1 a c k) rows [] i)).
  rewrite Eth in *. clearbody th. destruct th as [|x0 [|x1 [|x2 [|x3 [|? ?]]]]]; try discriminate Lth. cbn [nth reparam1] in *.
  set (sig := 2 * (x0 * x0) * exp x3) in *. set (sig' := 2 * (a * x0 * (a * x0)) * exp (x3 - ln k)) in *.
  assert (forall p q, ou_cov sig' (exp (x3 - ln k)) (k * (p + s0)) (k * (q + s0)) = a * a * ou_cov sig (exp x3) p q) as HK.
  { intros. assert (exp (x3 - ln k) = exp x3 / k) as E by (unfold Rminus, Rdiv; rewrite exp_plus, exp_Ropp, exp_ln by exact Hk; reflexivity).
    assert (sig' = a * a * sig / k) as -> by (unfold sig', sig; rewrite E; field; lra). rewrite E.
    exact (ou_units false a k s0 sig (exp x3) p q Hk (exp_pos _)). }
  exists s, x2, s', (a * x2 + c). split; [exact Es|]. split; [exact Es'|]. split.
  - exact (simulate_units _ _ a c k s0 Ha Hk HK (ou_sym _ _) (ou_times_pd _ _ Hsig' (exp_pos _)) _ _ _ _ _ _ s s' t y e x2 Hy He Hinc
      (filter_answers1 s t _ e sig _ Hs Hinc Hsig (exp_pos _)) (filter_answers1 s' _ _ _ sig' _ Hs' Hinc' Hsig' (exp_pos _))).
  - destruct (residuals1_holds s t y e sig _ x2 Hs Hinc Hsig (exp_pos _)) as (r & Er & Hr).
    destruct (residuals1_holds s' _ _ _ sig' _ (a * x2 + c) Hs' Hinc' Hsig' (exp_pos _)) as (r' & Er' & Hr').
    rewrite (residuals_units _ _ a c k s0 Ha Hk HK (ou_sym _ _) (ou_times_pd _ _ Hsig' (exp_pos _)) t y e x2 r r' Hy He Hinc Hr Hr') in Er'.
    exists r. split; assumption.
Qed.
Print Assumptions C98_sample_simulate_car1.

(** The hypotheses on the samples are met as for predict ([C98_sample_car1_hypotheses_met], [C98_sample_carma_hypotheses_met]); those on the simulated
    times, the sorting function and the generator as well. *)
Example C98_sample_simulate_hypotheses_met : (exists vs, valid_vsort vs) /\ NoDup [2; 5; 1] /\ no_exact PropsPy.tE PropsPy.eE [2; 5; 1] /\
  exists draw : nat -> F AX * nat, (forall g0, exists z, fst (draw g0) = Fin z) /\ fst (draw 0%nat) <> fst (draw 1%nat).
Proof.
  split; [exact PropsKF1.ex_valid_vsort|]. split; [repeat (constructor; [cbn; intros E; lra|]); constructor|]. split; [exact (proj1 PropsPy.ex_times)|].
  exists (fun n => (Fin (INR n) : F AX, Datatypes.S n)). split; [intros g0; exists (INR g0); reflexivity|]. cbn. intros E. injection E as E. lra.
Qed.
