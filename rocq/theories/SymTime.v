(** The unit of time: the log-density when every time is multiplied by k > 0 and the parameters are expressed in the new unit. *)
From Coq Require Import Reals List Arith ZArith Lra Lia Bool Permutation.
From Coquelicot Require Import Complex.
From Verif Require Import Arith Res ListLemmas KFModel Spec Gauss Emb History InitProof KF1X KF1Main KF1More.
From Verif Require Import Cx KFpModel KFpProof SpecCarma CLin KFpX KFpMain KFpTop KFpMore SpecModel CarpackModel RootsProof PriorProof LogLikProof LogLikMain CarpackTop CarpackRefute.
From Verif Require Import RamProof Det LogDens DetUniq ZeroProof Sym.
Import ListNotations.
Local Open Scope R_scope.
Local Notation length := List.length.

(** ** The transformed problem *)
Definition stretch (k : R) (t : list R) : list R := map (fun x => k * x) t.
(** logarithm of the factor by which the coefficient i of the n quadratic coefficients shrinks: s^2 + b s + a becomes s^2 + (b/k) s + a/k^2
    (even i for a, odd i for b), and s + c becomes s + c/k (the last one of an odd number) *)
Definition quad_shift (k : R) (n i : nat) : R := if Nat.odd n && (i =? n - 1)%nat then ln k else if Nat.even i then 2 * ln k else ln k.
(** theta in the new unit: p autoregressive coefficients from index 3, q moving average coefficients from index 3 + p *)
Definition unit_shift (k : R) (p q j : nat) : R :=
  if (j <? 3)%nat then 0 else if (j <? 3 + p)%nat then quad_shift k p (j - 3) else if (j <? 3 + p + q)%nat then quad_shift k q (j - 3 - p) else 0.
Definition new_unit (k : R) (p q : nat) (th : list R) : list R := map (fun j => nth j th 0 - unit_shift k p q j) (seq 0 (length th)).

Lemma new_unit_len k p q th : length (new_unit k p q th) = length th.
Proof. unfold new_unit. rewrite map_length, seq_length. reflexivity. Qed.
Lemma new_unit_nth k p q th j : (j < length th)%nat -> nth j (new_unit k p q th) 0 = nth j th 0 - unit_shift k p q j.
Proof.
  intros H. unfold new_unit. set (f := fun j => nth j th 0 - unit_shift k p q j). rewrite (nth_indep _ 0 (f 0%nat)) by (rewrite map_length, seq_length; exact H).
  rewrite (map_nth f), seq_nth by exact H. reflexivity.
Qed.
Lemma new_unit_low k p q th j : (j < 3)%nat -> (3 <= length th)%nat -> nth j (new_unit k p q th) 0 = nth j th 0.
Proof. intros H HL. rewrite new_unit_nth by lia. unfold unit_shift. destruct (Nat.ltb_spec j 3); [ring|lia]. Qed.
Lemma stretch_len k t : length (stretch k t) = length t. Proof. apply map_length. Qed.
Lemma stretch_nth k t i : nth i (stretch k t) 0 = k * nth i t 0.
Proof. unfold stretch. rewrite <- (Rmult_0_r k) at 1. apply (map_nth (fun x => k * x)). Qed.
Lemma stretch_inc k t : 0 < k -> strictly_increasing t -> strictly_increasing (stretch k t).
Proof. intros Hk H i j Hij Hj. rewrite stretch_len in Hj. rewrite !stretch_nth. apply Rmult_lt_compat_l; [exact Hk|apply H; assumption]. Qed.

Lemma bounds_stretch k t y smax fmin fmax : 0 < k -> (2 <= length t)%nat -> strictly_increasing t ->
  data_bounds t y smax fmin fmax -> data_bounds (stretch k t) y smax (fmin / k) (fmax / k).
Proof.
  intros Hk Hn Hinc [A1 A2 A3 (i & Hi & A4) A5].
  assert (1 / (fmax / k) = k * (1 / fmax)) as E by (field; lra). constructor.
  - exact A1.
  - apply Rdiv_lt_0_compat; assumption.
  - intros j Hj. rewrite stretch_len in Hj. rewrite !stretch_nth, E. pose proof (A3 j Hj). nra.
  - exists i. rewrite stretch_len. split; [exact Hi|]. rewrite !stretch_nth, E, A4. ring.
  - rewrite stretch_len, !stretch_nth, A5. pose proof (Hinc 0%nat (length t - 1)%nat ltac:(lia) ltac:(lia)). field. split; [nra|]. split; nra.
Qed.

(** ** Roots *)
Definition scl (l : R) (z : C) : C := Cmult (RtoC l) z.
Lemma scl_parts l z : scl l z = (l * fst z, l * snd z).
Proof. unfold scl. apply C_eq; cbn [fst snd Cmult RtoC]; ring. Qed.
Lemma exp_shift x k : 0 < k -> exp (x - ln k) = / k * exp x /\ exp (x - 2 * ln k) = / k * / k * exp x.
Proof.
  intros Hk. assert (exp (- ln k) = / k) as E by (rewrite exp_Ropp, exp_ln by exact Hk; reflexivity). split.
  - unfold Rminus. rewrite exp_plus, E. ring.
  - replace (x - 2 * ln k) with (x + (- ln k + - ln k)) by ring. rewrite !exp_plus, E. ring.
Qed.
Lemma rpair_scale k t1 t2 : 0 < k -> rpair (t1 - 2 * ln k) (t2 - ln k) = map (scl (/ k)) (rpair t1 t2).
Proof.
  intros Hk. unfold rpair. rewrite (proj2 (exp_shift t1 k Hk)), (proj1 (exp_shift t2 k Hk)).
  assert (0 < / k) as Hl by (apply Rinv_0_lt_compat, Hk). set (l := / k) in *. set (d := exp t2 * exp t2 - 4 * exp t1).
  replace (l * exp t2 * (l * exp t2) - 4 * (l * l * exp t1)) with (l * l * d) by (unfold d; ring).
  assert (0 < l * l) as Hll by nra.
  destruct (Rlt_dec 0 (l * l * d)) as [H|H], (Rlt_dec 0 d) as [H'|H']; try (exfalso; nra); cbn [map]; rewrite !scl_parts; cbn [fst snd].
  - rewrite sqrt_mult by nra. rewrite sqrt_square by lra. f_equal; [apply C_eq; cbn [fst snd]; ring|]. f_equal. apply C_eq; cbn [fst snd]; ring.
  - replace (- (l * l * d)) with (l * l * - d) by ring. rewrite sqrt_mult by nra. rewrite sqrt_square by lra. f_equal; [apply C_eq; cbn [fst snd]; ring|]. f_equal. apply C_eq; cbn [fst snd]; ring.
Qed.
Lemma qloop_scale k th th' m : 0 < k -> forall off, (forall i, (i < 2 * m)%nat -> nth (off + i) th' 0 = nth (off + i) th 0 - (if Nat.even i then 2 * ln k else ln k)) ->
  qloop th' off m = map (scl (/ k)) (qloop th off m).
Proof.
  intros Hk. induction m as [|m IH]; intros off H; [reflexivity|]. cbn [qloop]. rewrite map_app, <- rpair_scale by exact Hk. f_equal.
  - f_equal; [pose proof (H 0%nat ltac:(lia)) as E; rewrite Nat.add_0_r in E; exact E|exact (H 1%nat ltac:(lia))].
  - apply IH. intros i Hi. pose proof (H (S (S i)) ltac:(lia)) as E. cbn [Nat.even] in E. replace (off + 2 + i)%nat with (off + S (S i))%nat by lia. exact E.
Qed.
Lemma qroots_scale k th th' off n : 0 < k -> (forall i, (i < n)%nat -> nth (off + i) th' 0 = nth (off + i) th 0 - quad_shift k n i) ->
  qroots th' off n = map (scl (/ k)) (qroots th off n).
Proof.
  intros Hk H. pose proof (half2 n) as Hn. unfold qroots. rewrite map_app. f_equal.
  - apply qloop_scale; [exact Hk|]. intros i Hi. rewrite H by (revert Hn; destruct (Nat.odd n); lia). unfold quad_shift.
    destruct (Nat.odd n) eqn:E; cbn [andb]; [|reflexivity]. destruct (Nat.eqb_spec i (n - 1)); [lia|reflexivity].
  - destruct (Nat.odd n) eqn:E; [|reflexivity]. cbn [map]. f_equal. rewrite scl_parts. cbn [fst snd].
    assert (0 < n)%nat as Hp by (destruct n; [discriminate|lia]). pose proof (H (n - 1)%nat ltac:(lia)) as E1.
    unfold quad_shift in E1. rewrite E, Nat.eqb_refl in E1. cbn [andb] in E1. replace (off + (n - 1))%nat with (off + n - 1)%nat in E1 by lia.
    rewrite E1. rewrite (proj1 (exp_shift _ k Hk)). f_equal; ring.
Qed.
Lemma ar_scale k p q th : 0 < k -> (3 + p <= length th)%nat -> qroots (new_unit k p q th) 3 p = map (scl (/ k)) (qroots th 3 p).
Proof.
  intros Hk HL. apply qroots_scale; [exact Hk|]. intros i Hi. rewrite new_unit_nth by lia. unfold unit_shift.
  destruct (Nat.ltb_spec (3 + i) 3); [lia|]. destruct (Nat.ltb_spec (3 + i) (3 + p)); [|lia]. repeat f_equal; lia.
Qed.
Lemma ma_scale k p q th : 0 < k -> (3 + p + q <= length th)%nat -> qroots (new_unit k p q th) (3 + p) q = map (scl (/ k)) (qroots th (3 + p) q).
Proof.
  intros Hk HL. apply qroots_scale; [exact Hk|]. intros i Hi. rewrite new_unit_nth by lia. unfold unit_shift.
  destruct (Nat.ltb_spec (3 + p + i) 3); [lia|]. destruct (Nat.ltb_spec (3 + p + i) (3 + p)); [lia|].
  destruct (Nat.ltb_spec (3 + p + i) (3 + p + q)); [|lia]. repeat f_equal; lia.
Qed.
Lemma Cpown_RtoC r n : Cpown (RtoC r) n = RtoC (r ^ n).
Proof. induction n as [|n IH]; [reflexivity|]. cbn [Cpown pow]. rewrite IH. apply C_eq; cbn [fst snd Cmult RtoC]; ring. Qed.
Lemma roots_poly_scale l om z : roots_poly (map (scl l) om) (scl l z) = Cmult (Cpown (RtoC l) (length om)) (roots_poly om z).
Proof.
  induction om as [|r om IH]; cbn [map roots_poly length Cpown]; [ring|]. rewrite IH. unfold scl. ring.
Qed.
Lemma scl_inv k z : 0 < k -> scl (/ k) (scl k z) = z.
Proof. intros Hk. rewrite !scl_parts. cbn [fst snd]. apply C_eq; cbn [fst snd]; field; lra. Qed.

(** the moving average polynomial takes the same values at the scaled points *)
Lemma ma_poly_scale k p q th ma ma' : 0 < k -> (3 + p + q <= length th)%nat ->
  (forall z, Cmult (ma_poly ma z) (quad_poly th (3 + p) q (RtoC 0)) = quad_poly th (3 + p) q z) ->
  (forall z, Cmult (ma_poly ma' z) (quad_poly (new_unit k p q th) (3 + p) q (RtoC 0)) = quad_poly (new_unit k p q th) (3 + p) q z) ->
  forall z, ma_poly ma' (scl (/ k) z) = ma_poly ma z.
Proof.
  intros Hk HL H H' z. assert (0 < / k) as Hl by (apply Rinv_0_lt_compat, Hk).
  pose proof (H z) as E. pose proof (H' (scl (/ k) z)) as E'.
  replace (RtoC 0) with (scl (/ k) (RtoC 0)) in E' by (rewrite scl_parts; apply C_eq; cbn; ring).
  rewrite <- !qroots_poly in E, E'. rewrite (ma_scale k p q th Hk HL), !roots_poly_scale, qroots_len in E'. rewrite Cpown_RtoC in E'.
  set (c := RtoC ((/ k) ^ q)) in *. set (A := roots_poly (qroots th (3 + p) q) (RtoC 0)) in *. set (B := roots_poly (qroots th (3 + p) q) z) in *.
  assert (c <> RtoC 0) as Hc by (apply RtoC_neq0; apply Rgt_not_eq, pow_lt, Hl).
  assert (A <> RtoC 0) as HA. { intros E0. apply roots_poly_0 in E0. apply qroots_neg in E0. cbn in E0. lra. }
  assert (Cmult c A <> RtoC 0) as HcA by (apply Cmult_neq_0; assumption).
  replace (ma_poly ma' (scl (/ k) z)) with (Cdiv (Cmult (ma_poly ma' (scl (/ k) z)) (Cmult c A)) (Cmult c A)) by (field; split; assumption).
  rewrite E', <- E. field. split; assumption.
Qed.

(** ** Autocovariance *)
Lemma nth_scl l om i : nth i (map (scl l) om) (RtoC 0) = scl l (nth i om (RtoC 0)).
Proof. rewrite <- (map_nth (scl l)). f_equal. rewrite scl_parts. apply C_eq; cbn; ring. Qed.
Lemma Cprod_scale (c : C) f n k : (k < n)%nat -> Cprod (fun l => if Nat.eqb l k then RtoC 1 else Cmult c (f l)) n =
  Cmult (Cpown c (n - 1)) (Cprod (fun l => if Nat.eqb l k then RtoC 1 else f l) n).
Proof.
  assert (forall m, (m <= k)%nat -> Cprod (fun l => if Nat.eqb l k then RtoC 1 else Cmult c (f l)) m = Cmult (Cpown c m) (Cprod (fun l => if Nat.eqb l k then RtoC 1 else f l) m)) as H.
  { induction m as [|m IH]; intros Hm; cbn [Cprod Cpown]; [ring|]. rewrite IH by lia. destruct (Nat.eqb_spec m k); [lia|]. ring. }
  induction n as [|n IH]; intros Hn; [lia|]. cbn [Cprod]. destruct (Nat.eqb_spec n k) as [->|Hne].
  - rewrite H by lia. replace (S k - 1)%nat with k by lia. ring.
  - rewrite IH by lia. replace (S n - 1)%nat with (S (n - 1))%nat by lia. cbn [Cpown]. ring.
Qed.
Lemma denom_scale l om k : (k < length om)%nat -> carma_denom (map (scl l) om) k = Cmult (RtoC (l * (l * l) ^ (length om - 1))) (carma_denom om k).
Proof.
  intros Hk. unfold carma_denom. rewrite map_length, nth_scl.
  rewrite (Cprod_ext _ (fun j => if Nat.eqb j k then RtoC 1 else
     Cmult (RtoC (l * l)) (Cmult (Cminus (nth j om (RtoC 0)) (nth k om (RtoC 0))) (Cplus (Cconj (nth j om (RtoC 0))) (nth k om (RtoC 0)))))).
  2:{ intros j Hj. destruct (Nat.eqb j k); [reflexivity|]. rewrite nth_scl, !scl_parts. apply C_eq; cbn [fst snd Cmult Cminus Cplus Copp Cconj RtoC]; ring. }
  rewrite Cprod_scale by exact Hk. rewrite Cpown_RtoC, scl_parts. cbn [fst].
  replace (RtoC (-2 * (l * fst (nth k om (RtoC 0))))) with (Cmult (RtoC l) (RtoC (-2 * fst (nth k om (RtoC 0))))) by (apply C_eq; cbn [fst snd Cmult RtoC]; ring).
  replace (RtoC (l * (l * l) ^ (length om - 1))) with (Cmult (RtoC l) (RtoC ((l * l) ^ (length om - 1)))) by (apply C_eq; cbn [fst snd Cmult RtoC]; ring).
  ring.
Qed.
Lemma acv_scale k om ma ma' tau : 0 < k -> (forall i, (i < length om)%nat -> carma_denom om i <> RtoC 0) ->
  (forall z, ma_poly ma' (scl (/ k) z) = ma_poly ma z) ->
  carma_acv 1 ma' (map (scl (/ k)) om) (k * tau) = / (/ k * (/ k * / k) ^ (length om - 1)) * carma_acv 1 ma om tau.
Proof.
  intros Hk Hd Hm. assert (0 < / k) as Hl by (apply Rinv_0_lt_compat, Hk).
  set (c := / k * (/ k * / k) ^ (length om - 1)). assert (0 < c) as Hc by (apply Rmult_lt_0_compat; [exact Hl|apply pow_lt; nra]).
  unfold carma_acv. rewrite map_length, !Rmult_1_l.
  assert (forall r (z : C), r * fst z = fst (Cmult (RtoC r) z)) as Ef by (intros r z; destruct z as [z1 z2]; cbn; ring).
  rewrite Ef, <- Csum_scal. f_equal. apply Csum_ext. intros i Hi. rewrite denom_scale by exact Hi. fold c.
  rewrite nth_scl. set (r := nth i om (RtoC 0)). rewrite Hm. replace (Copp (scl (/ k) r)) with (scl (/ k) (Copp r)) by (unfold scl; ring). rewrite Hm.
  replace (Cmult (scl (/ k) r) (RtoC (k * tau))) with (Cmult r (RtoC tau)) by (rewrite scl_parts; apply C_eq; cbn [fst snd Cmult RtoC]; field; lra).
  rewrite RtoC_inv by lra. field. split; [apply Hd, Hi|]. apply RtoC_neq0. lra.
Qed.

Lemma denom_nz om i : stable_roots om -> (i < length om)%nat -> carma_denom om i <> RtoC 0.
Proof.
  intros (Hnd & Hneg & Hc) Hi. unfold carma_denom. apply Cmult_neq_0.
  - apply RtoC_neq0. pose proof (Hneg _ (nth_In om (RtoC 0) Hi)). lra.
  - apply Cprod_neq0. intros l Hl. destruct (Nat.eqb_spec l i) as [|Hne]; [apply RtoC_neq0; lra|]. apply Cmult_neq_0.
    + intros E. apply Hne. apply (proj1 (NoDup_nth om (RtoC 0)) Hnd l i Hl Hi). replace (nth l om (RtoC 0)) with (Cplus (Cminus (nth l om (RtoC 0)) (nth i om (RtoC 0))) (nth i om (RtoC 0))) by ring.
      rewrite E. ring.
    + intros E. apply (f_equal fst) in E. cbn [fst Cplus Cconj RtoC] in E.
      pose proof (Hneg _ (nth_In om (RtoC 0) Hi)). pose proof (Hneg _ (nth_In om (RtoC 0) Hl)). unfold C in *. lra.
Qed.

(** ** The prior *)
(** the order of the centroids in terms of theta: |Im| of the roots of s^2 + b s + a is sqrt(max(0, 4 a - b^2)) / 2 *)
Definition osc (th : list R) (i : nat) : R := Rmax 0 (4 * exp (nth (3 + 2 * i) th 0) - exp (nth (4 + 2 * i) th 0) * exp (nth (4 + 2 * i) th 0)).
Definition centroids_ordered (p : nat) (th : list R) : Prop := forall i, (2 * i + 3 < p)%nat -> osc th (S i) <= osc th i.

Lemma rpair_im t1 t2 r : In r (rpair t1 t2) -> Rabs (snd r) = sqrt (Rmax 0 (4 * exp t1 - exp t2 * exp t2)) / 2.
Proof.
  unfold rpair. destruct (Rlt_dec 0 (exp t2 * exp t2 - 4 * exp t1)) as [H|H]; intros [<-|[<-|[]]]; cbn [snd].
  - rewrite Rabs_R0, Rmax_left by lra. rewrite sqrt_0. lra.
  - rewrite Rabs_R0, Rmax_left by lra. rewrite sqrt_0. lra.
  - rewrite Rmax_right by lra. replace (4 * exp t1 - exp t2 * exp t2) with (- (exp t2 * exp t2 - 4 * exp t1)) by ring.
    pose proof (sqrt_pos (- (exp t2 * exp t2 - 4 * exp t1))). rewrite Rabs_left1 by lra. lra.
  - rewrite Rmax_right by lra. replace (4 * exp t1 - exp t2 * exp t2) with (- (exp t2 * exp t2 - 4 * exp t1)) by ring.
    pose proof (sqrt_pos (- (exp t2 * exp t2 - 4 * exp t1))). rewrite Rabs_right by lra. lra.
Qed.
Lemma rpair_len t1 t2 : length (rpair t1 t2) = 2%nat.
Proof. unfold rpair. destruct (Rlt_dec 0 (exp t2 * exp t2 - 4 * exp t1)); reflexivity. Qed.
Lemma qloop_im th m : forall off j, (j < 2 * m)%nat ->
  Rabs (snd (nth j (qloop th off m) (RtoC 0))) =
  sqrt (Rmax 0 (4 * exp (nth (off + 2 * (j / 2)) th 0) - exp (nth (off + 2 * (j / 2) + 1) th 0) * exp (nth (off + 2 * (j / 2) + 1) th 0))) / 2.
Proof.
  induction m as [|m IH]; intros off j Hj; [lia|]. cbn [qloop]. destruct (Nat.lt_ge_cases j 2) as [H|H].
  - rewrite app_nth1 by (rewrite rpair_len; exact H). rewrite (rpair_im (nth off th 0) (nth (off + 1) th 0)) by (apply nth_In; rewrite rpair_len; exact H).
    replace (j / 2)%nat with 0%nat by (symmetry; apply Nat.div_small; exact H). rewrite Nat.mul_0_r, Nat.add_0_r. reflexivity.
  - rewrite app_nth2 by (rewrite rpair_len; exact H). rewrite rpair_len, IH by lia.
    replace (j / 2)%nat with (S ((j - 2) / 2))%nat.
    2:{ replace j with (j - 2 + 1 * 2)%nat at 2 by lia. rewrite Nat.div_add by lia. lia. }
    replace (off + 2 * S ((j - 2) / 2))%nat with (off + 2 + 2 * ((j - 2) / 2))%nat by lia. reflexivity.
Qed.
Lemma ordered_roots p th : centroids_ordered p th -> forall i, (S i < p)%nat ->
  Rabs (snd (nth (S i) (qroots th 3 p) (RtoC 0))) <= Rabs (snd (nth i (qroots th 3 p) (RtoC 0))).
Proof.
  intros Ho i Hi. pose proof (half2 p) as Hp. pose proof (qloop_len th (p / 2) 3) as Hl. unfold qroots.
  destruct (Nat.lt_ge_cases (S i) (2 * (p / 2))) as [H|H].
  - rewrite (app_nth1 _ _ _ (n := S i)) by (rewrite Hl; lia). rewrite (app_nth1 _ _ _ (n := i)) by (rewrite Hl; lia). rewrite !qloop_im by lia.
    destruct (Nat.eq_dec (S i / 2) (i / 2)) as [E|E]; [rewrite E; lra|].
    pose proof (Nat.div_mod i 2 ltac:(lia)) as D1. pose proof (Nat.div_mod (S i) 2 ltac:(lia)) as D2.
    pose proof (Nat.mod_upper_bound i 2 ltac:(lia)). pose proof (Nat.mod_upper_bound (S i) 2 ltac:(lia)).
    assert (S i / 2 = S (i / 2))%nat as -> by lia.
    pose proof (Ho (i / 2)%nat ltac:(lia)) as Hle. unfold osc in Hle.
    replace (3 + 2 * S (i / 2) + 1)%nat with (4 + 2 * S (i / 2))%nat by lia. replace (3 + 2 * (i / 2) + 1)%nat with (4 + 2 * (i / 2))%nat by lia.
    apply Rmult_le_compat_r; [lra|]. apply sqrt_le_1_alt. exact Hle.
  - rewrite (app_nth2 _ _ _ (n := S i)) by lia. destruct (Nat.odd p).
    + replace (S i - length (qloop th 3 (p / 2)))%nat with 0%nat by lia. cbn [nth snd]. rewrite Rabs_R0. apply Rabs_pos.
    + lia.
Qed.

Lemma scl_abs k z : 0 < k -> Rabs (snd (scl (/ k) z)) = Rabs (snd z) / k /\ fst (scl (/ k) z) = fst z / k.
Proof.
  intros Hk. rewrite scl_parts. cbn [fst snd]. assert (0 < / k) by (apply Rinv_0_lt_compat, Hk). split.
  - rewrite Rabs_mult, (Rabs_right (/ k)) by lra. unfold Rdiv. ring.
  - unfold Rdiv. ring.
Qed.
Lemma frac_scale tol k r s : 0 < k -> frac_apart tol (scl (/ k) r) (scl (/ k) s) <-> frac_apart tol r s.
Proof.
  intros Hk. assert (0 < / k) as Hl by (apply Rinv_0_lt_compat, Hk). unfold frac_apart.
  replace (Cplus (scl (/ k) r) (scl (/ k) s)) with (Cmult (RtoC (/ k)) (Cplus r s)) by (unfold scl; ring).
  replace (Cminus (scl (/ k) r) (scl (/ k) s)) with (Cmult (RtoC (/ k)) (Cminus r s)) by (unfold scl; ring).
  rewrite !Cmod_mult, !Cmod_R, (Rabs_right (/ k)) by lra. split; intros H; nra.
Qed.
(** the prior apart from the order of the centroids *)
Record in_prior_u (smax fmin fmax : R) (th : list R) (roots : list C) : Prop := {
  pu_centroid : forall r, In r roots -> Rabs (snd r) / (2 * PI) < fmax;
  pu_width : forall r, In r roots -> fmin < - fst r / (2 * PI) < fmax;
  pu_stdev : 0 <= nth 0 th 0 <= smax;
  pu_scale : 1 / 2 <= nth 1 th 0 <= 2;
  pu_apart : forall i j, (i < j)%nat -> (j < length roots)%nat -> frac_apart (1 / 10000) (nth i roots (RtoC 0)) (nth j roots (RtoC 0)) }.
Definition in_order (roots : list C) : Prop := forall i, (S i < length roots)%nat ->
    Rabs (snd (nth (S i) roots (RtoC 0))) / (2 * PI) <= Rabs (snd (nth i roots (RtoC 0))) / (2 * PI) + 1 / 100000000.
Lemma in_prior_split smax fmin fmax th om : in_prior smax fmin fmax th om <-> in_prior_u smax fmin fmax th om /\ in_order om.
Proof.
  split.
  - intros [H1 H2 H3 H4 H5 H6]. split; [constructor; assumption|exact H5].
  - intros ([H1 H2 H3 H4 H6] & H5). constructor; assumption.
Qed.
Lemma in_prior_u_scale k p q smax fmin fmax th om : 0 < k -> (3 <= length th)%nat ->
  in_prior_u smax fmin fmax th om <-> in_prior_u smax (fmin / k) (fmax / k) (new_unit k p q th) (map (scl (/ k)) om).
Proof.
  intros Hk HL. assert (0 < / k) as Hl by (apply Rinv_0_lt_compat, Hk). pose proof PI_RGT_0 as HPI.
  assert (forall x y, x / k < y / k <-> x < y) as Hlt by (intros x y; unfold Rdiv; split; intros; nra).
  split; intros [H1 H2 H3 H4 H5]; constructor.
  - intros r Hr. apply in_map_iff in Hr. destruct Hr as (z & <- & Hz). rewrite (proj1 (scl_abs k z Hk)).
    replace (Rabs (snd z) / k / (2 * PI)) with (Rabs (snd z) / (2 * PI) / k) by (field; lra). apply Hlt, H1, Hz.
  - intros r Hr. apply in_map_iff in Hr. destruct Hr as (z & <- & Hz). rewrite (proj2 (scl_abs k z Hk)).
    replace (- (fst z / k) / (2 * PI)) with (- fst z / (2 * PI) / k) by (field; lra). split; apply Hlt, H2, Hz.
  - rewrite new_unit_low by lia. exact H3.
  - rewrite new_unit_low by lia. exact H4.
  - intros i j Hij Hj. rewrite map_length in Hj. rewrite !nth_scl. apply frac_scale; [exact Hk|]. apply H5; assumption.
  - intros z Hz. pose proof (H1 _ (in_map (scl (/ k)) _ _ Hz)) as H. rewrite (proj1 (scl_abs k z Hk)) in H.
    replace (Rabs (snd z) / k / (2 * PI)) with (Rabs (snd z) / (2 * PI) / k) in H by (field; lra). apply Hlt, H.
  - intros z Hz. pose proof (H2 _ (in_map (scl (/ k)) _ _ Hz)) as H. rewrite (proj2 (scl_abs k z Hk)) in H.
    replace (- (fst z / k) / (2 * PI)) with (- fst z / (2 * PI) / k) in H by (field; lra). split; apply Hlt, H.
  - rewrite new_unit_low in H3 by lia. exact H3.
  - rewrite new_unit_low in H4 by lia. exact H4.
  - intros i j Hij Hj. pose proof (H5 i j Hij ltac:(rewrite map_length; exact Hj)) as H. rewrite !nth_scl in H. apply frac_scale in H; assumption.
Qed.
Lemma ordered_in_order p th : centroids_ordered p th -> in_order (qroots th 3 p).
Proof.
  intros H i Hi. rewrite qroots_len in Hi. pose proof (ordered_roots p th H i Hi) as Hle. pose proof PI_RGT_0.
  apply Rmult_le_compat_r with (r := / (2 * PI)) in Hle; [|left; apply Rinv_0_lt_compat; lra]. unfold Rdiv. lra.
Qed.
Lemma ordered_new k p q th : 0 < k -> (3 + p <= length th)%nat -> centroids_ordered p th -> in_order (qroots (new_unit k p q th) 3 p).
Proof.
  intros Hk HL H. rewrite ar_scale by assumption. intros i Hi. rewrite map_length, qroots_len in Hi. rewrite !nth_scl, !(proj1 (scl_abs k _ Hk)).
  pose proof (ordered_roots p th H i Hi) as Hle. pose proof PI_RGT_0. assert (0 < / k) by (apply Rinv_0_lt_compat, Hk).
  apply Rmult_le_compat_r with (r := / k * / (2 * PI)) in Hle; [|left; apply Rmult_lt_0_compat; [assumption|apply Rinv_0_lt_compat; lra]]. unfold Rdiv. lra.
Qed.

(** ** LogDensity *)
Lemma loglik_stretch K K' k (t y e : list R) scale mu x z : (forall p q, K p q = K q p) -> (forall p q, K' (k * p) (k * q) = K p q) -> (forall p q, K' p q = K' q p) ->
  0 <= scale -> length y = length t -> length e = length t ->
  is_loglik K t y e scale mu x -> is_loglik K' (stretch k t) y e scale mu z -> z = x.
Proof.
  intros HK HK' HKs Hs Hy He Hx Hz.
  apply is_loglik_normal in Hx; try assumption. apply is_loglik_normal in Hz; try (rewrite stretch_len); try assumption. rewrite stretch_len in Hz.
  eapply is_normal_ll_unique; [exact Hz|]. eapply normal_ext; [| |exact Hx]; [|reflexivity].
  intros i j Hi Hj. cbn beta. rewrite !stretch_nth, HK'. reflexivity.
Qed.

Lemma time1 k (t y e th : list R) smax fmin fmax (b b' : base AX (F AX)) : 0 < k -> strictly_increasing t -> (4 <= length th)%nat ->
  base_holds b t y e (mkB AX (Fin smax) (Fin fmax) (Fin fmin) false) ->
  base_holds b' (stretch k t) y e (mkB AX (Fin smax) (Fin (fmax / k)) (Fin (fmin / k)) false) ->
  exists v w w', LogDensity (car1_cls AX) b (map Fin th) = Ok (v, w) /\ LogDensity (car1_cls AX) b' (map Fin (new_unit k 1 0 th)) = Ok (v, w').
Proof.
  intros Hk Hinc HL Hb Hb'. destruct (base_holds_lens _ _ _ _ _ _ Hb) as (Ly & Le & Ln).
  assert (4 <= length (new_unit k 1 0 th))%nat as HL' by (rewrite new_unit_len; exact HL).
  assert (exp (nth 3 (new_unit k 1 0 th) 0) = exp (nth 3 th 0) / k) as E3.
  { rewrite new_unit_nth by lia. change (unit_shift k 1 0 3) with (ln k). rewrite (proj1 (exp_shift _ k Hk)). unfold Rdiv. ring. }
  assert (in_prior1 smax fmin fmax th <-> in_prior1 smax (fmin / k) (fmax / k) (new_unit k 1 0 th)) as Hiff.
  { unfold in_prior1. rewrite E3, !new_unit_low by lia. assert (0 < / k) as Hl by (apply Rinv_0_lt_compat, Hk).
    assert (forall x y, x / k <= y / k <-> x <= y) as Hle by (intros u v; unfold Rdiv; split; intros; nra). rewrite !Hle. tauto. }
  destruct (Classical_Prop.classic (in_prior1 smax fmin fmax th)) as [Hin|Hout].
  - pose proof (proj1 Hiff Hin) as Hin'. pose proof Hin as (_ & _ & Hs).
    destruct (Req_dec (nth 0 th 0) 0) as [E0|E0].
    + pose proof (LD1_zero b t y e th smax fmin fmax false Hb HL Hin E0) as (Z1 & Z2).
      pose proof (LD1_zero b' _ _ _ _ _ _ _ false Hb' HL' Hin' ltac:(rewrite new_unit_low by lia; exact E0)) as (Z1' & Z2').
      rewrite stretch_len, !new_unit_low in * by lia. destruct (Classical_Prop.classic (exists i, (i < length t)%nat /\ nth i e 0 = 0)) as [Hz|Hz].
      * destruct (Z2 Hz) as (w & E). destruct (Z2' Hz) as (w' & E'). exists NaN, w, w'. split; [exact E|exact E'].
      * assert (forall i, (i < length t)%nat -> nth i e 0 <> 0) as Hnz by (intros i Hi Ei; apply Hz; exists i; auto).
        destruct (Z1 Hnz) as (x & w & E & Hx). destruct (Z1' Hnz) as (z & w' & E' & Hz').
        exists (Fin (x + log_sichi (nth 1 th 0))), w, w'. split; [exact E|]. refine (eq_trans E' _).
        rewrite (loglik_stretch (fun _ _ => 0) (fun _ _ => 0) k t y e (nth 1 th 0) (nth 2 th 0) x z); try assumption; try reflexivity. lra.
    + destruct (LD1_inside b t y e th smax fmin fmax false Hb Hinc HL Hin E0) as (m & v & w & E & _ & _ & _ & _ & Hc).
      destruct (LD1_inside b' _ _ _ _ _ _ _ false Hb' (stretch_inc k t Hk Hinc) HL' Hin' ltac:(rewrite new_unit_low by lia; exact E0)) as (m' & v' & w' & E' & _ & _ & _ & _ & Hc').
      eexists; exists w, w'. split; [exact E|]. refine (eq_trans E' _). do 2 f_equal.
      rewrite stretch_len, E3, !new_unit_low in * by lia.
      rewrite (loglik_stretch (fun a c => nth 0 th 0 * nth 0 th 0 * exp (- (exp (nth 3 th 0) * Rabs (a - c))))
        (fun a c => nth 0 th 0 * nth 0 th 0 * exp (- (exp (nth 3 th 0) / k * Rabs (a - c)))) k t y e (nth 1 th 0) (nth 2 th 0)
        (gauss_ll (length t) (fun i => nth i y 0 - nth 2 th 0) (fun i => nth i m 0) (fun i => nth i v 0))
        (gauss_ll (length t) (fun i => nth i y 0 - nth 2 th 0) (fun i => nth i m' 0) (fun i => nth i v' 0))); try assumption.
      * reflexivity.
      * intros p q. rewrite Rabs_minus_sym. reflexivity.
      * intros p q. do 3 f_equal. replace (k * p - k * q) with (k * (p - q)) by ring. rewrite Rabs_mult, (Rabs_right k) by lra. field. lra.
      * intros p q. rewrite Rabs_minus_sym. reflexivity.
      * lra.
      * exists (fun i => nth i m 0), (fun i => nth i v 0). split; [exact Hc|reflexivity].
      * exists (fun i => nth i m' 0), (fun i => nth i v' 0). rewrite stretch_len. split; [exact Hc'|reflexivity].
  - exists NInf, b, b'. split; [exact (LD1_outside b t y e th smax fmin fmax false Hb HL Hout)|].
    apply (LD1_outside b' _ _ _ _ _ _ _ false Hb' HL'). intros H. apply Hout, Hiff, H.
Qed.

Lemma timep2 solve p q maf maf' prior k (t y e th ma ma' : list R) pr smax fmin fmax (b b' : base AX (kpx AX)) : valid_solve solve -> 0 < k -> strictly_increasing t ->
  (2 <= p)%nat -> (3 + p <= length th)%nat -> length ma = p -> length ma' = p -> (exists l, nth l ma 0 <> 0) -> (exists l, nth l ma' 0 <> 0) ->
  maf (map Fin th) = Ok (map Fin ma) -> maf' (map Fin (new_unit k p q th)) = Ok (map Fin ma') -> (forall z, ma_poly ma' (scl (/ k) z) = ma_poly ma z) ->
  (0 < nth 1 th 0 -> prior (map Fin th) = Ok (Fin pr)) -> (0 < nth 1 th 0 -> prior (map Fin (new_unit k p q th)) = Ok (Fin pr)) ->
  base_holds b t y e (mkB AX (Fin smax) (Fin fmax) (Fin fmin) false) ->
  base_holds b' (stretch k t) y e (mkB AX (Fin smax) (Fin (fmax / k)) (Fin (fmin / k)) false) ->
  exists v v' w w', LogDensity (pcls solve p maf prior) b (map Fin th) = Ok (v, w) /\
    LogDensity (pcls solve p maf' prior) b' (map Fin (new_unit k p q th)) = Ok (v', w') /\
    (v' = v \/ (~ in_order (qroots th 3 p) /\ v = NInf) \/ (~ in_order (qroots (new_unit k p q th) 3 p) /\ v' = NInf)).
Proof.
  intros Hsv Hk Hinc Hp HL Lma Lma' Nma Nma' Em Em' Hm Ep Ep' Hb Hb'. destruct (base_holds_lens _ _ _ _ _ _ Hb) as (Ly & Le & Ln).
  pose proof (quad_roots_Fin th 3 p HL) as EA. assert (3 + p <= length (new_unit k p q th))%nat as HL' by (rewrite new_unit_len; exact HL).
  pose proof (quad_roots_Fin (new_unit k p q th) 3 p HL') as EA'. pose proof (ar_scale k p q th Hk HL) as Eom.
  set (om := qroots th 3 p) in *. set (om' := qroots (new_unit k p q th) 3 p) in *.
  pose proof (in_prior_u_scale k p q smax fmin fmax th om Hk ltac:(lia)) as Hiff. rewrite <- Eom in Hiff.
  assert (length om = p) as Lom by apply qroots_len.
  pose proof (in_prior_split smax fmin fmax th om) as S1. pose proof (in_prior_split smax (fmin / k) (fmax / k) (new_unit k p q th) om') as S2.
  assert (forall (P : Prop), P \/ ~ P) as EM by exact Classical_Prop.classic.
  destruct (EM (in_prior smax fmin fmax th om)) as [Hin|Hout], (EM (in_prior smax (fmin / k) (fmax / k) (new_unit k p q th) om')) as [Hin'|Hout'].
  - pose proof (pr_scale _ _ _ _ _ Hin) as Hs. specialize (Ep ltac:(lra)). specialize (Ep' ltac:(lra)).
    destruct (Req_dec (nth 0 th 0) 0) as [E0|E0].
    + pose proof (LDp_zero solve p maf prior b t y e th ma om smax fmin fmax pr Hsv Hb Hp HL Em Lma Nma Ep EA Hin E0) as (Z1 & Z2).
      pose proof (LDp_zero solve p maf' prior b' _ _ _ _ ma' om' _ _ _ pr Hsv Hb' Hp HL' Em' Lma' Nma' Ep' EA' Hin' ltac:(rewrite new_unit_low by lia; exact E0)) as (Z1' & Z2').
      rewrite stretch_len, !new_unit_low in * by lia. destruct (EM (exists i, (i < length t)%nat /\ nth i e 0 = 0)) as [Hz|Hz].
      * destruct (Z2 Hz) as (w & E). destruct (Z2' Hz) as (w' & E'). exists NaN, NaN, w, w'. split; [exact E|]. split; [exact E'|left; reflexivity].
      * assert (forall i, (i < length t)%nat -> nth i e 0 <> 0) as Hnz by (intros i Hi Ei; apply Hz; exists i; auto).
        destruct (Z1 Hnz) as (x & w & E & Hx). destruct (Z1' Hnz) as (z & w' & E' & Hz').
        exists (Fin (x + pr)), (Fin (z + pr)), w, w'. split; [exact E|]. split; [exact E'|]. left.
        rewrite (loglik_stretch (fun _ _ => 0) (fun _ _ => 0) k t y e (nth 1 th 0) (nth 2 th 0) x z); try assumption; try reflexivity. lra.
    + destruct (LDp_all solve p maf prior b t y e th ma om smax fmin fmax false pr Hsv Hb Hinc Hp HL Em Lma Nma ltac:(auto) EA ltac:(auto) ltac:(discriminate) E0 ltac:(lra)) as (x & w & E & Hx).
      destruct (LDp_all solve p maf' prior b' _ _ _ (new_unit k p q th) ma' om' _ _ _ false pr Hsv Hb' (stretch_inc k t Hk Hinc) Hp HL' Em' Lma' Nma' ltac:(auto) EA' ltac:(auto) ltac:(discriminate)
        ltac:(rewrite new_unit_low by lia; exact E0) ltac:(rewrite new_unit_low by lia; lra)) as (z & w' & E' & Hz).
      rewrite !new_unit_low in Hz by lia.
      exists (Fin (x + pr)), (Fin (z + pr)), w, w'. split; [exact E|]. split; [exact E'|]. left.
      assert (stable_roots om) as Hst.
      { split; [apply (apart_NoDup smax fmin fmax th); [intros r; apply qroots_neg|exact Hin]|]. split; [intros r; apply qroots_neg|].
        intros r Hr. apply conj_closed_in; [apply qroots_conj|exact Hr]. }
      assert (forall i, (i < length om)%nat -> carma_denom om i <> RtoC 0) as Hd by (intros i Hi; apply denom_nz; assumption).
      set (c := / (/ k * (/ k * / k) ^ (length om - 1))).
      assert (0 < c) as Hc by (apply Rinv_0_lt_compat; assert (0 < / k) by (apply Rinv_0_lt_compat, Hk); apply Rmult_lt_0_compat; [assumption|apply pow_lt; nra]).
      pose proof (acv1_pos p th ma om Hp HL Lma Nma EA (proj1 Hst)) as Hpos.
      assert (z = x) as ->; [|reflexivity].
      eapply loglik_stretch; [| | | | | |exact Hx|exact Hz]; try assumption; try lra.
      * intros u v. unfold carma_cov. rewrite Rabs_minus_sym. reflexivity.
      * intros u v. unfold carma_cov. replace (k * u - k * v) with (k * (u - v)) by ring. rewrite Rabs_mult, (Rabs_right k) by lra.
        rewrite carma_acv_scale. rewrite (carma_acv_scale _ ma om (Rabs (u - v))). rewrite Eom, (acv_scale k om ma ma' (Rabs (u - v)) Hk Hd Hm).
        pose proof (acv_scale k om ma ma' 0 Hk Hd Hm) as A0. rewrite Rmult_0_r in A0. rewrite A0. fold c. field. lra.
      * intros u v. unfold carma_cov. rewrite Rabs_minus_sym. reflexivity.
  - destruct (EM (in_order om')) as [Ho|Ho]; [exfalso; apply Hout', S2; split; [apply Hiff, S1, Hin|exact Ho]|].
    pose proof (LDp_none solve p maf' prior b' _ _ _ _ om' _ _ _ Hb' HL' EA' Hout') as E'. pose proof (pr_scale _ _ _ _ _ Hin) as Hs.
    destruct (Req_dec (nth 0 th 0) 0) as [E0|E0].
    + destruct (LDp_zero solve p maf prior b t y e th ma om smax fmin fmax pr Hsv Hb Hp HL Em Lma Nma (Ep ltac:(lra)) EA Hin E0) as (Z1 & Z2).
      destruct (EM (exists i, (i < length t)%nat /\ nth i e 0 = 0)) as [Hz|Hz].
      * destruct (Z2 Hz) as (w & E). exists NaN, NInf, w, b'. split; [exact E|]. split; [exact E'|]. right; right. split; [exact Ho|reflexivity].
      * destruct Z1 as (x & w & E & _). { intros i Hi Ei. apply Hz. exists i. auto. }
        exists (Fin (x + pr)), NInf, w, b'. split; [exact E|]. split; [exact E'|]. right; right. split; [exact Ho|reflexivity].
    + destruct (LDp_all solve p maf prior b t y e th ma om smax fmin fmax false pr Hsv Hb Hinc Hp HL Em Lma Nma ltac:(auto) EA ltac:(auto) ltac:(discriminate) E0 ltac:(lra)) as (x & w & E & _).
      exists (Fin (x + pr)), NInf, w, b'. split; [exact E|]. split; [exact E'|]. right; right. split; [exact Ho|reflexivity].
  - destruct (EM (in_order om)) as [Ho|Ho]; [exfalso; apply Hout, S1; split; [apply Hiff, S2, Hin'|exact Ho]|].
    pose proof (LDp_none solve p maf prior b _ _ _ _ om _ _ _ Hb HL EA Hout) as E. pose proof (pr_scale _ _ _ _ _ Hin') as Hs. rewrite new_unit_low in Hs by lia.
    destruct (Req_dec (nth 0 th 0) 0) as [E0|E0].
    + destruct (LDp_zero solve p maf' prior b' _ _ _ _ ma' om' _ _ _ pr Hsv Hb' Hp HL' Em' Lma' Nma' (Ep' ltac:(lra)) EA' Hin' ltac:(rewrite new_unit_low by lia; exact E0)) as (Z1 & Z2).
      rewrite stretch_len in *. destruct (EM (exists i, (i < length t)%nat /\ nth i e 0 = 0)) as [Hz|Hz].
      * destruct (Z2 Hz) as (w & E'). exists NInf, NaN, b, w. split; [exact E|]. split; [exact E'|]. right; left. split; [exact Ho|reflexivity].
      * destruct Z1 as (x & w & E' & _). { intros i Hi Ei. apply Hz. exists i. auto. }
        exists NInf, (Fin (x + pr)), b, w. split; [exact E|]. split; [exact E'|]. right; left. split; [exact Ho|reflexivity].
    + destruct (LDp_all solve p maf' prior b' _ _ _ (new_unit k p q th) ma' om' _ _ _ false pr Hsv Hb' (stretch_inc k t Hk Hinc) Hp HL' Em' Lma' Nma'
        ltac:(intros _; apply Ep'; lra) EA' ltac:(auto) ltac:(discriminate) ltac:(rewrite new_unit_low by lia; exact E0) ltac:(rewrite new_unit_low by lia; lra)) as (x & w & E' & _).
      exists NInf, (Fin (x + pr)), b, w. split; [exact E|]. split; [exact E'|]. right; left. split; [exact Ho|reflexivity].
  - exists NInf, NInf, b, b'. split; [exact (LDp_none solve p maf prior b _ _ _ _ om _ _ _ Hb HL EA Hout)|].
    split; [exact (LDp_none solve p maf' prior b' _ _ _ _ om' _ _ _ Hb' HL' EA' Hout')|]. left. reflexivity.
Qed.
