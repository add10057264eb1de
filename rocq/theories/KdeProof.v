(** The contour levels of plot_2dkde (PyPlotModel). *)
From Coq Require Import List Arith ZArith Reals Lra Lia Bool String.
From Verif Require Import Arith Res ListLemmas Cx KFModel InitProof CarpackModel CarpackTop Emb EngineModel StartModel PyModel PySampleModel PySampleProof PyQuant PySum PyAssessModel PyAssess HistProof PyPlotModel PlotProof.
Import ListNotations.
Local Open Scope R_scope.
Local Notation length := List.length.

(** ** Specification: the part of the total carried by the elements that are at least [l] *)
Definition total (h : list R) : R := fold_right Rplus 0 h.
Definition mass (h : list R) (l : R) : R := total (filter (fun v => if Rle_dec l v then true else false) h) / total h.
(** [L] is the level of [frac] to within the tolerance of the bisection: between [l] and [u] the mass passes from at least [frac] to at most
    [frac] *)
Definition level_of (h : list R) (frac L : R) : Prop := exists l u, l <= L <= u /\ u - l <= 2 * tol L /\ frac <= mass h l /\ mass h u <= frac.

Lemma vsum_total l : vsum AX (map Fin l) = Fin (total l).
Proof.
  unfold vsum. change (fofZ AX 0) with (Fin 0).
  assert (forall l a, fold_left (fadd AX) (map Fin l) (Fin a) = Fin (a + total l)) as G.
  { clear. induction l as [|x l IH]; intros a; cbn [map fold_left total fold_right]; [f_equal; lra|]. change (fadd AX (Fin a) (Fin x)) with (Fin (a + x)). rewrite IH. f_equal. unfold total. lra. }
  rewrite G. f_equal. lra.
Qed.
Lemma filter_Fin l (h : list R) : filter (fun v => fle AX (Fin l) v) (map Fin h) = map Fin (filter (fun v => if Rle_dec l v then true else false) h).
Proof. induction h as [|x h IH]; [reflexivity|]. cbn [map filter]. rewrite fleX. destruct (Rle_dec l x); cbn [map]; now rewrite IH. Qed.
Lemma total_pos h : h <> [] -> (forall v, In v h -> 0 < v) -> 0 < total h.
Proof.
  intros Hne Hp. destruct h as [|x h]; [congruence|]. cbn [total fold_right]. pose proof (Hp x (or_introl eq_refl)).
  assert (0 <= fold_right Rplus 0 h); [|lra]. assert (forall v, In v h -> 0 < v) as Hp' by (intros; apply Hp; right; assumption). clear - Hp'.
  induction h as [|y h IH]; cbn; [lra|]. pose proof (Hp' y (or_introl eq_refl)). specialize (IH ltac:(intros; apply Hp'; right; assumption)). lra.
Qed.
Lemma hfrac_Fin h frac l : h <> [] -> (forall v, In v h -> 0 < v) -> hfrac AX (map Fin h) (Fin frac) (Fin l) = Fin (mass h l - frac).
Proof.
  intros Hne Hp. pose proof (total_pos h Hne Hp). unfold hfrac. rewrite filter_Fin, !vsum_total, fin_div by lra. reflexivity.
Qed.
Lemma mass_min h lo : h <> [] -> (forall v, In v h -> 0 < v) -> (forall v, In v h -> lo <= v) -> mass h lo = 1.
Proof.
  intros Hne Hp Hlo. pose proof (total_pos h Hne Hp). unfold mass.
  assert (filter (fun v => if Rle_dec lo v then true else false) h = h) as ->; [|field; lra].
  clear - Hlo. induction h as [|x h IH]; [reflexivity|]. cbn [filter]. destruct (Rle_dec lo x) as [_|N]; [|exfalso; apply N, Hlo; left; reflexivity].
  rewrite IH; [reflexivity|]. intros; apply Hlo; right; assumption.
Qed.

(** ** One level *)
Definition wide : R := 2 ^ 100 * (2 / 1000000000000).
Section Level.
Variable h : list R.
Variables lo hi : R.
Hypothesis Hne : h <> [].
Hypothesis Hp : forall v, In v h -> 0 < v.
Hypothesis Hlo : In lo h /\ forall v, In v h -> lo <= v.
Hypothesis Hhi : In hi h /\ forall v, In v h -> v <= hi.
Hypothesis Hw : hi - lo < wide.
Let f frac := hfrac AX (map Fin h) (Fin frac).
Let Hf frac l : f frac (Fin l) = Fin (mass h l - frac).
Proof. apply hfrac_Fin; assumption. Qed.
Let Hm : mass h lo = 1.
Proof. apply mass_min; try assumption. apply Hlo. Qed.

Lemma ltX a b : flt AX (Fin a) (Fin b) = if Rlt_dec a b then true else false.
Proof. cbn. destruct (Rlt_dec a b); reflexivity. Qed.
Lemma bisect_cases frac : frac < 1 -> bisect AX (f frac) (Fin lo) (Fin hi) =
  if Req_EM_T (mass h hi) frac then Ok (Fin hi) else if Rlt_dec (mass h hi) frac then bisect_loop AX (f frac) false 100 (Fin lo) (Fin (hi - lo)) else Throw Elogic.
Proof.
  intro H1. unfold bisect. rewrite !Hf, Hm. change (fofZ AX 0) with (Fin 0). rewrite !ltX.
  change (feq AX (Fin (1 - frac)) (Fin 0)) with (if Req_EM_T (1 - frac) 0 then true else false).
  change (feq AX (Fin (mass h hi - frac)) (Fin 0)) with (if Req_EM_T (mass h hi - frac) 0 then true else false).
  destruct (Req_EM_T (1 - frac) 0); [exfalso; lra|]. destruct (Rlt_dec (1 - frac) 0); [exfalso; lra|].
  destruct (Req_EM_T (mass h hi - frac) 0), (Req_EM_T (mass h hi) frac); try (exfalso; lra); [reflexivity|].
  destruct (Rlt_dec (mass h hi - frac) 0), (Rlt_dec (mass h hi) frac); try (exfalso; lra); reflexivity.
Qed.
Lemma lo_lt_hi frac : frac < 1 -> mass h hi <= frac -> lo < hi.
Proof. intros H1 H2. pose proof (proj2 Hlo hi (proj1 Hhi)). destruct (Req_dec lo hi) as [E|]; [|lra]. rewrite <- E, Hm in H2. lra. Qed.

Lemma bisect_level frac : frac < 1 -> mass h hi <= frac ->
  exists L, bisect AX (f frac) (Fin lo) (Fin hi) = Ok (Fin L) /\ lo <= L <= hi /\ level_of h frac L.
Proof.
  intros H1 H2. pose proof (lo_lt_hi frac H1 H2) as Hlt. rewrite bisect_cases by exact H1. destruct (Req_EM_T (mass h hi) frac) as [E|N].
  - exists hi. split; [reflexivity|]. split; [lra|]. exists hi, hi. pose proof (tol_pos hi). rewrite E. repeat split; lra.
  - destruct (Rlt_dec (mass h hi) frac) as [S|S]; [|exfalso; lra].
    destruct (loop_conv (f frac) (fun l => mass h l - frac) (Hf frac) 100 lo (hi - lo) ltac:(lra) Hw ltac:(lia)) as (v & E). rewrite E.
    destruct (loop_spec (f frac) (fun l => mass h l - frac) (Hf frac) 100 lo (hi - lo) v ltac:(lra) ltac:(cbv beta; rewrite Hm; lra) ltac:(cbv beta; replace (lo + (hi - lo)) with hi by ring; lra) E)
      as (L & -> & HL & l & u & A1 & A2 & A3 & A4 & A5 & A6).
    exists L. split; [reflexivity|]. split; [lra|]. exists l, u. repeat split; lra.
Qed.
Lemma bisect_mono f1 f2 L1 L2 : f1 < 1 -> f2 <= f1 -> mass h hi <= f2 ->
  bisect AX (f f1) (Fin lo) (Fin hi) = Ok (Fin L1) -> bisect AX (f f2) (Fin lo) (Fin hi) = Ok (Fin L2) -> L1 <= L2.
Proof.
  intros H1 H2 H3 E1 E2. pose proof (lo_lt_hi f1 H1 ltac:(lra)) as Hlt.
  destruct (bisect_level f1 H1 ltac:(lra)) as (L & E & HL & _). rewrite E in E1. injection E1 as ->.
  rewrite bisect_cases in E by exact H1. rewrite bisect_cases in E2 by lra.
  destruct (Req_EM_T (mass h hi) f2) as [Q2|N2]; [injection E2 as <-; lra|].
  destruct (Req_EM_T (mass h hi) f1) as [Q1|N1]; [exfalso; lra|].
  destruct (Rlt_dec (mass h hi) f1); [|discriminate]. destruct (Rlt_dec (mass h hi) f2); [|discriminate].
  apply (loop_mono (f f1) (fun l => mass h l - f1) (f f2) (fun l => mass h l - f2) (Hf f1) (Hf f2) ltac:(intro; lra) 100 lo (hi - lo)); try assumption; cbv beta; try rewrite Hm; try lra;
  replace (lo + (hi - lo)) with hi by ring; lra.
Qed.
(** no level set has a mass between the two fractions: the two levels are the same *)
Lemma bisect_same f1 f2 : f1 < 1 -> f2 <= f1 -> mass h hi < f2 -> (forall l, mass h l < f2 \/ f1 < mass h l) ->
  bisect AX (f f1) (Fin lo) (Fin hi) = bisect AX (f f2) (Fin lo) (Fin hi).
Proof.
  intros H1 H2 H3 HJ. pose proof (lo_lt_hi f1 H1 ltac:(lra)) as Hlt. rewrite !bisect_cases by lra.
  destruct (Req_EM_T (mass h hi) f1); [exfalso; lra|]. destruct (Req_EM_T (mass h hi) f2); [exfalso; lra|].
  destruct (Rlt_dec (mass h hi) f1); [|exfalso; lra]. destruct (Rlt_dec (mass h hi) f2); [|exfalso; lra].
  apply (loop_same (f f1) (fun l => mass h l - f1) (f f2) (fun l => mass h l - f2) (Hf f1) (Hf f2)); [lra|].
  intros l _. destruct (HJ l); repeat split; lra.
Qed.
End Level.

(** ** The three levels *)
Definition f1 : R := 9973 / 10000.
Definition f2 : R := 9545 / 10000.
Definition f3 : R := 6827 / 10000.
(** the largest element of [h] *)
Definition is_max (h : list R) (hi : R) : Prop := In hi h /\ forall v, In v h -> v <= hi.
Definition is_min (h : list R) (lo : R) : Prop := In lo h /\ forall v, In v h -> lo <= v.

Lemma max_unique h a b : is_max h a -> is_max h b -> a = b.
Proof. intros [A1 A2] [B1 B2]. apply Rle_antisym; [apply B2|apply A2]; assumption. Qed.
Lemma min_unique h a b : is_min h a -> is_min h b -> a = b.
Proof. intros [A1 A2] [B1 B2]. apply Rle_antisym; [apply A2|apply B2]; assumption. Qed.
Lemma contour_unfold h lo hi : is_min h lo -> is_max h hi -> contour_levels AX (map Fin h) =
  rmap (fun frac => bisect AX (hfrac AX (map Fin h) frac) (Fin lo) (Fin hi)) [Fin f1; Fin f2; Fin f3].
Proof.
  intros Hlo Hhi. assert (h <> []) as Hne by (intros ->; destruct Hlo as [[] _]). unfold contour_levels.
  destruct (vmin_ok h Hne) as (a & -> & A). destruct (vmax_ok h Hne) as (b & -> & B). cbn [bind].
  rewrite (min_unique h a lo A Hlo), (max_unique h b hi B Hhi). reflexivity.
Qed.

Theorem contour_ok h lo hi : (forall v, In v h -> 0 < v) -> is_min h lo -> is_max h hi -> hi - lo < wide -> mass h hi <= f3 ->
  exists L1 L2 L3, contour_levels AX (map Fin h) = Ok (map Fin [L1; L2; L3]) /\ lo <= L1 /\ L1 <= L2 /\ L2 <= L3 /\ L3 <= hi /\
    level_of h f1 L1 /\ level_of h f2 L2 /\ level_of h f3 L3.
Proof.
  intros Hp Hlo Hhi Hw Hm. assert (h <> []) as Hne by (intros ->; destruct Hlo as [[] _]). rewrite (contour_unfold h lo hi Hlo Hhi).
  destruct (bisect_level h lo hi Hne Hp Hlo Hhi Hw f1 ltac:(unfold f1; lra) ltac:(unfold f1, f3 in *; lra)) as (L1 & E1 & R1 & V1').
  destruct (bisect_level h lo hi Hne Hp Hlo Hhi Hw f2 ltac:(unfold f2; lra) ltac:(unfold f2, f3 in *; lra)) as (L2 & E2 & R2 & V2').
  destruct (bisect_level h lo hi Hne Hp Hlo Hhi Hw f3 ltac:(unfold f3; lra) Hm) as (L3 & E3 & R3 & V3').
  exists L1, L2, L3. split; [cbn [rmap]; change (F AX) with xr in *; rewrite E1; cbn [bind]; rewrite E2; cbn [bind]; rewrite E3; reflexivity|].
  split; [apply R1|]. split; [|split; [|split; [apply R3|split; [exact V1'|split; assumption]]]].
  - apply (bisect_mono h lo hi Hne Hp Hlo Hhi Hw f1 f2 L1 L2); try assumption; unfold f1, f2, f3 in *; lra.
  - apply (bisect_mono h lo hi Hne Hp Hlo Hhi Hw f2 f3 L2 L3); try assumption; unfold f1, f2, f3 in *; lra.
Qed.
Theorem contour_raises h lo hi : (forall v, In v h -> 0 < v) -> is_min h lo -> is_max h hi -> hi - lo < wide -> f3 < mass h hi ->
  contour_levels AX (map Fin h) = Throw Elogic.
Proof.
  intros Hp Hlo Hhi Hw Hm. assert (h <> []) as Hne by (intros ->; destruct Hlo as [[] _]). rewrite (contour_unfold h lo hi Hlo Hhi). cbn [rmap].
  assert (forall f, f < 1 -> (exists v, bisect AX (hfrac AX (map Fin h) (Fin f)) (Fin lo) (Fin hi) = Ok v) \/ bisect AX (hfrac AX (map Fin h) (Fin f)) (Fin lo) (Fin hi) = Throw Elogic) as G.
  { intros f Hf. destruct (Rle_dec (mass h hi) f) as [L|N]; [left|right].
    - destruct (bisect_level h lo hi Hne Hp Hlo Hhi Hw f Hf L) as (v & E & _). eexists. exact E.
    - rewrite (bisect_cases h lo hi Hne Hp Hlo f Hf). destruct (Req_EM_T (mass h hi) f); [exfalso; lra|]. destruct (Rlt_dec (mass h hi) f); [exfalso; lra|reflexivity]. }
  change (F AX) with xr in *.
  destruct (G f1 ltac:(unfold f1; lra)) as [(v1 & ->)| ->]; [|reflexivity]. cbn [bind].
  destruct (G f2 ltac:(unfold f2; lra)) as [(v2 & ->)| ->]; [|reflexivity]. cbn [bind].
  rewrite (bisect_cases h lo hi Hne Hp Hlo f3) by (unfold f3; lra). destruct (Req_EM_T (mass h hi) f3); [exfalso; lra|]. destruct (Rlt_dec (mass h hi) f3); [exfalso; lra|reflexivity].
Qed.
Lemma rmap3 {T U} (g : T -> res U) a b c x y z : rmap g [a; b; c] = Ok [x; y; z] -> g a = Ok x /\ g b = Ok y /\ g c = Ok z.
Proof.
  cbn [rmap]. destruct (g a) as [x'| | |]; try discriminate. cbn [bind]. destruct (g b) as [y'| | |]; try discriminate. cbn [bind].
  destruct (g c) as [z'| | |]; try discriminate. cbn [bind]. intro E. injection E as -> -> ->. repeat split.
Qed.
(** consecutive fractions between which no level set lies *)
Theorem contour_same h lo hi L1 L2 L3 : (forall v, In v h -> 0 < v) -> is_min h lo -> is_max h hi -> hi - lo < wide -> mass h hi < f3 ->
  contour_levels AX (map Fin h) = Ok (map Fin [L1; L2; L3]) ->
  ((forall l, mass h l < f2 \/ f1 < mass h l) -> L1 = L2) /\ ((forall l, mass h l < f3 \/ f2 < mass h l) -> L2 = L3).
Proof.
  intros Hp Hlo Hhi Hw Hm. assert (h <> []) as Hne by (intros ->; destruct Hlo as [[] _]). rewrite (contour_unfold h lo hi Hlo Hhi).
  pose proof (bisect_same h lo hi Hne Hp Hlo Hhi f1 f2 ltac:(unfold f1; lra) ltac:(unfold f1, f2; lra) ltac:(unfold f2, f3 in *; lra)) as S1.
  pose proof (bisect_same h lo hi Hne Hp Hlo Hhi f2 f3 ltac:(unfold f2; lra) ltac:(unfold f2, f3; lra) Hm) as S2.
  intro E. apply (rmap3 (fun f => bisect AX (hfrac AX (map Fin h) f) (Fin lo) (Fin hi))) in E. destruct E as (E1 & E2 & E3). cbv beta in E1, E2, E3.
  split; intro J; [specialize (S1 J); pose proof (eq_trans (eq_sym E1) (eq_trans S1 E2)) as Q|specialize (S2 J); pose proof (eq_trans (eq_sym E2) (eq_trans S2 E3)) as Q]; now injection Q.
Qed.

(** ** plot_2dkde *)
(** the points of the mesh: [n] equally spaced values from [lo] to [hi] *)
Definition mesh (lo hi : R) (n : nat) : list R := map (fun i => lo + INR i * ((hi - lo) / INR (n - 1))) (seq 0 n).
Definition on_mesh (K : R -> R -> R) (x y : list R) : list R := flat_map (fun b => map (fun a => K a b) x) y.
Lemma grid_Fin lo hi n : (0 < n)%nat -> (if (n =? 1)%nat then [Fin lo] else np_linspace AX (Fin lo) (Fin hi) n) = map Fin (mesh lo hi n).
Proof.
  intro Hn. destruct (Nat.eqb_spec n 1) as [->|N].
  - unfold mesh. cbn. do 2 f_equal. lra.
  - replace n with ((n - 1) + 1)%nat at 1 by lia. rewrite linspace_Fin by lia. unfold mesh. rewrite map_map. replace (n - 1 + 1)%nat with n by lia. apply map_ext. intro i. reflexivity.
Qed.
Lemma on_mesh_Fin (k : F AX -> F AX -> F AX) K x y : (forall a b, k (Fin a) (Fin b) = Fin (K a b)) ->
  flat_map (fun b => map (fun a => k a b) (map Fin x)) (map Fin y) = map Fin (on_mesh K x y).
Proof.
  intro HK. unfold on_mesh. induction y as [|b y IH]; [reflexivity|]. cbn [map flat_map]. rewrite map_app, <- IH. f_equal. rewrite !map_map. apply map_ext. intro a. apply HK.
Qed.
Lemma on_mesh_In K x y v : In v (on_mesh K x y) <-> exists a b, In a x /\ In b y /\ v = K a b.
Proof.
  unfold on_mesh. rewrite in_flat_map. split.
  - intros (b & Hb & Hv). apply in_map_iff in Hv. destruct Hv as (a & <- & Ha). exists a, b. auto.
  - intros (a & b & Ha & Hb & ->). exists b. split; [exact Hb|]. apply in_map_iff. exists a. auto.
Qed.

Section Kde.
Variable kde : list (F AX) -> list (F AX) -> res (F AX -> F AX -> F AX).
Variable d : dict AX.
Variables k1 k2 : string.
Variables m1 m2 : list (list R).
Variables c1 c2 : nat.
Variables i1 i2 : Z.
Variable nbins : nat.
Hypothesis Hd1 : dget d k1 = Some (V2 AX (map (map Fin) m1)).
Hypothesis Hd2 : dget d k2 = Some (V2 AX (map (map Fin) m2)).
Hypothesis Hm1 : m1 <> [].
Hypothesis Hm2 : m2 <> [].
Hypothesis Hc1 : forall row, In row m1 -> length row = c1.
Hypothesis Hc2 : forall row, In row m2 -> length row = c2.
Hypothesis Hi1 : (- Z.of_nat c1 <= i1 < Z.of_nat c1)%Z.
Hypothesis Hi2 : (- Z.of_nat c2 <= i2 < Z.of_nat c2)%Z.
Hypothesis Hnb : (0 < nbins)%nat.
Let x := rcolumn m1 (col_index c1 i1).
Let y := rcolumn m2 (col_index c2 i2).
Variable k : F AX -> F AX -> F AX.
Variable K : R -> R -> R.
Hypothesis Hk : kde (map Fin x) (map Fin y) = Ok k.
Hypothesis HK : forall a b, k (Fin a) (Fin b) = Fin (K a b).
Hypothesis Hpos : forall a b, 0 < K a b.
Variables x0 x1 y0 y1 : R.
Hypothesis Hx0 : is_min x x0.
Hypothesis Hx1 : is_max x x1.
Hypothesis Hy0 : is_min y y0.
Hypothesis Hy1 : is_max y y1.
Let h := on_mesh K (mesh x0 x1 nbins) (mesh y0 y1 nbins).

Lemma kde_h : h <> [] /\ forall v, In v h -> 0 < v.
Proof.
  split.
  - destruct nbins as [|n]; [lia|]. unfold h, on_mesh, mesh. cbn. discriminate.
  - intros v Hv. apply on_mesh_In in Hv. destruct Hv as (a & b & _ & _ & ->). apply Hpos.
Qed.
Lemma kde_run : plot_2dkde kde d k1 k2 i1 i2 nbins =
  (levels <- contour_levels AX (map Fin h) ;;
   if negb (increasing AX levels) then Throw Elogic else
   h1 <- plt_hist AX (map Fin x) 100 false ;;
   h2 <- plt_hist AX (map Fin y) 100 false ;;
   Ok (Some (map Fin h, levels, h1, h2))).
Proof.
  unfold plot_2dkde. rewrite (two_columns_ok d k1 k2 m1 m2 c1 c2 i1 i2 Hd1 Hd2 Hm1 Hm2 Hc1 Hc2 Hi1 Hi2). cbn [bind]. fold x y. change (F AX) with xr in *. rewrite Hk. cbn [bind].
  assert (x <> []) as Nx by (apply rcolumn_ne; exact Hm1). assert (y <> []) as Ny by (apply rcolumn_ne; exact Hm2).
  destruct (vmin_ok x Nx) as (a & Ea & A). change (F AX) with xr in *. rewrite Ea. destruct (vmax_ok x Nx) as (b & Eb & B). change (F AX) with xr in *. rewrite Eb. cbn [bind].
  destruct (vmin_ok y Ny) as (a' & Ea' & A'). change (F AX) with xr in *. rewrite Ea'. destruct (vmax_ok y Ny) as (b' & Eb' & B'). change (F AX) with xr in *. rewrite Eb'. cbn [bind].
  rewrite (min_unique x a x0 A Hx0), (max_unique x b x1 B Hx1), (min_unique y a' y0 A' Hy0), (max_unique y b' y1 B' Hy1).
  cbv zeta. rewrite (grid_Fin x0 x1 nbins Hnb), (grid_Fin y0 y1 nbins Hnb). rewrite (on_mesh_Fin k K _ _ HK). reflexivity.
Qed.

Lemma increasing_Fin L1 L2 L3 : increasing AX (map Fin [L1; L2; L3]) = true <-> L1 < L2 < L3.
Proof. unfold increasing. cbn [map tl combine forallb fst snd]. rewrite !ltX. destruct (Rlt_dec L1 L2), (Rlt_dec L2 L3); cbn; split; intro; (reflexivity || discriminate || lra). Qed.

Theorem kde_ok lo hi : is_min h lo -> is_max h hi -> hi - lo < wide -> mass h hi <= f3 ->
  exists L1 L2 L3, lo <= L1 /\ L1 <= L2 /\ L2 <= L3 /\ L3 <= hi /\ level_of h f1 L1 /\ level_of h f2 L2 /\ level_of h f3 L3 /\
    (L1 < L2 < L3 -> exists h1 h2, plot_2dkde kde d k1 k2 i1 i2 nbins = Ok (Some (map Fin h, map Fin [L1; L2; L3], h1, h2))) /\
    (~ L1 < L2 < L3 -> plot_2dkde kde d k1 k2 i1 i2 nbins = Throw Elogic).
Proof.
  intros Hlo Hhi Hw Hm. destruct (contour_ok h lo hi (proj2 kde_h) Hlo Hhi Hw Hm) as (L1 & L2 & L3 & E & O1 & O2 & O3 & O4 & V1' & V2' & V3').
  exists L1, L2, L3. repeat (split; [assumption|]). rewrite kde_run. change (F AX) with xr in *. rewrite E. cbn [bind]. pose proof (increasing_Fin L1 L2 L3) as HI. change (F AX) with xr in *. split; intro S.
  - rewrite (proj2 HI S). cbn [negb].
    destruct (plt_hist_ok x 100 false (rcolumn_ne m1 _ Hm1) ltac:(lia)) as (a1 & a2 & a3 & a4 & Ea & _). destruct (plt_hist_ok y 100 false (rcolumn_ne m2 _ Hm2) ltac:(lia)) as (b1 & b2 & b3 & b4 & Eb & _).
    change (F AX) with xr in *. rewrite Ea. cbn [bind]. rewrite Eb. cbn [bind]. eexists _, _. reflexivity.
  - destruct (increasing AX (map Fin [L1; L2; L3])); [exfalso; apply S, HI; reflexivity|reflexivity].
Qed.
Theorem kde_peak lo hi : is_min h lo -> is_max h hi -> hi - lo < wide -> f3 < mass h hi -> plot_2dkde kde d k1 k2 i1 i2 nbins = Throw Elogic.
Proof. intros Hlo Hhi Hw Hm. rewrite kde_run, (contour_raises h lo hi (proj2 kde_h) Hlo Hhi Hw Hm). reflexivity. Qed.
Theorem kde_coarse lo hi : is_min h lo -> is_max h hi -> hi - lo < wide -> mass h hi < f3 ->
  (forall l, mass h l < f2 \/ f1 < mass h l) \/ (forall l, mass h l < f3 \/ f2 < mass h l) -> plot_2dkde kde d k1 k2 i1 i2 nbins = Throw Elogic.
Proof.
  intros Hlo Hhi Hw Hm HJ. destruct (contour_ok h lo hi (proj2 kde_h) Hlo Hhi Hw (Rlt_le _ _ Hm)) as (L1 & L2 & L3 & E & _).
  destruct (contour_same h lo hi L1 L2 L3 (proj2 kde_h) Hlo Hhi Hw Hm E) as [S1 S2]. rewrite kde_run. change (F AX) with xr in *. rewrite E. cbn [bind].
  pose proof (increasing_Fin L1 L2 L3) as HI. change (F AX) with xr in *. destruct (increasing AX (map Fin [L1; L2; L3])); [|reflexivity].
  exfalso. destruct (proj1 HI eq_refl). destruct HJ as [J|J]; [specialize (S1 J)|specialize (S2 J)]; lra.
Qed.
End Kde.
Lemma mass_one v : 0 < v -> mass [v] v = 1.
Proof. intro H. unfold mass. cbn [filter]. destruct (Rle_dec v v) as [_|N]; [|exfalso; lra]. unfold total. cbn. field. lra. Qed.
