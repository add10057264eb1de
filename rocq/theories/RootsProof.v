(** Roots, polynomial coefficients and moving average coefficients on finite parameters. *)
From Coq Require Import Reals List Arith ZArith Lra Lia Bool Permutation.
From Coquelicot Require Import Complex.
From Verif Require Import Arith Res ListLemmas KFModel Spec Gauss Emb Cx KFpModel KFpProof SpecCarma CLin KFpR KFpX
  SpecModel CarpackModel.
Import ListNotations.
Local Open Scope R_scope.
Local Open Scope C_scope.

(** ** roots_poly *)
Lemma roots_poly_app l l' s : roots_poly (l ++ l') s = roots_poly l s * roots_poly l' s.
Proof. induction l as [|a l IH]; simpl; [ring|]. rewrite IH. ring. Qed.
Lemma roots_poly_0 l s : roots_poly l s = 0 <-> In s l.
Proof.
  induction l as [|a l IH]; simpl.
  - split; [|tauto]. intros E. apply (RtoC_neq0 1); [lra|exact E].
  - split.
    + intros E. apply Cmult_integral in E. destruct E as [E|E]; [left|right; apply IH, E].
      replace s with ((s - a) + a) by ring. rewrite E. ring.
    + intros [->|H]; [ring|]. apply IH in H. rewrite H. ring.
Qed.

(** ** quadratic pairs *)
Definition rpair (t1 t2 : R) : list C :=
  let q1 := exp t1 in let q2 := exp t2 in
  let disc := (q2 * q2 - 4 * q1)%R in
  if Rlt_dec 0 disc then [((- (1/2) * (q2 + sqrt disc))%R, 0%R); ((- (1/2) * (q2 - sqrt disc))%R, 0%R)]
  else [((- (1/2) * q2)%R, (- (1/2) * sqrt (- disc))%R); ((- (1/2) * q2)%R, (- (- (1/2) * sqrt (- disc)))%R)].

Lemma quad_pair_Fin t1 t2 : quad_pair AX (Fin t1) (Fin t2) = map FinC (rpair t1 t2).
Proof.
  unfold quad_pair, rpair. cbn [fexp fmul fsub fofZ flt AX xexp xmul xsub xlt fdec fneg fsqrt fadd].
  destruct (Rlt_dec 0 (exp t2 * exp t2 - 4 * exp t1)) as [H|H].
  - rewrite !fin_sqrt by lra. reflexivity.
  - cbn [xneg]. rewrite !fin_sqrt by lra. reflexivity.
Qed.

Lemma rpair_spec t1 t2 : exists r1 r2, rpair t1 t2 = [r1; r2] /\ r1 + r2 = - RtoC (exp t2) /\ r1 * r2 = RtoC (exp t1) /\
  (fst r1 < 0)%R /\ (fst r2 < 0)%R /\ (Cconj r1 = r2 \/ (Cconj r1 = r1 /\ Cconj r2 = r2)).
Proof.
  unfold rpair. pose proof (exp_pos t1) as P1. pose proof (exp_pos t2) as P2.
  destruct (Rlt_dec 0 (exp t2 * exp t2 - 4 * exp t1)) as [H|H].
  - set (d := (exp t2 * exp t2 - 4 * exp t1)%R) in *. pose proof (sqrt_sqrt d (Rlt_le _ _ H)) as Hs.
    pose proof (sqrt_pos d) as Hp. assert (sqrt d < exp t2)%R as Hlt by (unfold d in *; nra).
    do 2 eexists. split; [reflexivity|]. repeat split; cbn [fst snd]; try lra.
    + apply C_eq; cbn [fst snd Cplus Copp RtoC]; lra.
    + apply C_eq; cbn [fst snd Cmult RtoC]; unfold d in *; nra.
    + right. split; apply C_eq; cbn [fst snd Cconj]; lra.
  - set (d := (exp t2 * exp t2 - 4 * exp t1)%R) in *.
    assert (0 <= - d)%R as Hd by lra. pose proof (sqrt_sqrt _ Hd) as Hs.
    do 2 eexists. split; [reflexivity|]. repeat split; cbn [fst snd]; try lra.
    + apply C_eq; cbn [fst snd Cplus Copp RtoC]; lra.
    + apply C_eq; cbn [fst snd Cmult RtoC]; unfold d in *; nra.
    + left. apply C_eq; cbn [fst snd Cconj]; lra.
Qed.

Fixpoint qloop (th : list R) (off k : nat) : list C :=
  match k with O => [] | S k' => rpair (nth off th 0%R) (nth (off + 1) th 0%R) ++ qloop th (off + 2) k' end.
Definition qroots (th : list R) (off n : nat) : list C :=
  qloop th off (n / 2) ++ (if Nat.odd n then [((- exp (nth (off + n - 1) th 0))%R, 0%R)] else []).

Lemma vget_Fin (th : list R) i : (i < length th)%nat -> vget (map Fin th) i = Ok (Fin (nth i th 0%R)).
Proof.
  intros H. rewrite vget_ok with (d := Fin 0%R) by (rewrite map_length; exact H). f_equal. apply nth_map_Fin.
Qed.
Lemma quad_loop_Fin th : forall k off, (off + 2 * k <= length th)%nat ->
  quad_loop AX (map Fin th) off k = Ok (map FinC (qloop th off k)).
Proof.
  induction k as [|k IH]; intros off H; [reflexivity|].
  cbn [quad_loop qloop]. rewrite !vget_Fin by lia. cbn [bind].
  rewrite IH by lia. cbn [bind]. rewrite quad_pair_Fin, map_app. reflexivity.
Qed.
Lemma half2 n : (n = 2 * (n / 2) + if Nat.odd n then 1 else 0)%nat.
Proof.
  rewrite (Nat.div_mod n 2) at 1 by lia. f_equal.
  rewrite <- Nat.bit0_mod, Nat.bit0_odd. destruct (Nat.odd n); reflexivity.
Qed.
Lemma quad_roots_Fin th off n : (off + n <= length th)%nat ->
  quad_roots AX (map Fin th) off n = Ok (map FinC (qroots th off n)).
Proof.
  intros H. pose proof (half2 n) as Hn. unfold quad_roots, qroots.
  rewrite quad_loop_Fin by lia.
  cbn [bind]. revert Hn. destruct (Nat.odd n); intros Hn.
  - rewrite vget_Fin by lia. cbn [bind]. rewrite map_app. reflexivity.
  - rewrite app_nil_r. reflexivity.
Qed.

Lemma qloop_len th : forall k off, length (qloop th off k) = (2 * k)%nat.
Proof.
  induction k as [|k IH]; intros off; [reflexivity|]. cbn [qloop]. rewrite app_length, IH.
  destruct (rpair_spec (nth off th 0%R) (nth (off + 1) th 0%R)) as (a & b & -> & _). simpl. lia.
Qed.
Lemma qroots_len th off n : length (qroots th off n) = n.
Proof.
  pose proof (half2 n) as Hn. unfold qroots. rewrite app_length, qloop_len. revert Hn. destruct (Nat.odd n); cbn [length]; lia.
Qed.
Lemma qloop_neg th : forall k off z, In z (qloop th off k) -> (fst z < 0)%R.
Proof.
  induction k as [|k IH]; intros off z H; [destruct H|]. cbn [qloop] in H. apply in_app_or in H. destruct H as [H|H].
  - destruct (rpair_spec (nth off th 0%R) (nth (off + 1) th 0%R)) as (a & b & E & _ & _ & Ha & Hb & _). rewrite E in H.
    destruct H as [<-|[<-|[]]]; assumption.
  - exact (IH _ _ H).
Qed.
Lemma qroots_neg th off n z : In z (qroots th off n) -> (fst z < 0)%R.
Proof.
  unfold qroots. intros H. apply in_app_or in H. destruct H as [H|H]; [exact (qloop_neg _ _ _ _ H)|].
  destruct (Nat.odd n); [|destruct H]. destruct H as [<-|[]]. cbn [fst].
  pose proof (exp_pos (nth (off + n - 1) th 0)). lra.
Qed.
Lemma conj_closed_app l l' : conj_closed l -> conj_closed l' -> conj_closed (l ++ l').
Proof. unfold conj_closed. intros H H'. rewrite map_app. apply Permutation_app; assumption. Qed.
Lemma rpair_conj a b : conj_closed (rpair a b).
Proof.
  destruct (rpair_spec a b) as (r1 & r2 & -> & _ & _ & _ & _ & H). unfold conj_closed. simpl. destruct H as [H|[H1 H2]].
  - assert (Cconj r2 = r1) as H' by (rewrite <- H; apply conj_conj). rewrite H, H'. apply perm_swap.
  - rewrite H1, H2. apply Permutation_refl.
Qed.
Lemma qloop_conj th : forall k off, conj_closed (qloop th off k).
Proof.
  induction k as [|k IH]; intros off; [apply Permutation_refl|]. cbn [qloop]. apply conj_closed_app; [apply rpair_conj|apply IH].
Qed.
Lemma qroots_conj th off n : conj_closed (qroots th off n).
Proof.
  apply conj_closed_app; [apply qloop_conj|]. destruct (Nat.odd n); [|apply Permutation_refl].
  unfold conj_closed, Cconj. simpl. rewrite Ropp_0. apply Permutation_refl.
Qed.
Lemma Cprod_shift (f : nat -> C) n : Cprod f (S n) = f O * Cprod (fun k => f (S k)) n.
Proof. induction n as [|n IH]; [simpl; ring|]. cbn [Cprod] in *. rewrite IH. ring. Qed.
Lemma rpair_poly a b s : roots_poly (rpair a b) s = s * s + RtoC (exp b) * s + RtoC (exp a).
Proof.
  destruct (rpair_spec a b) as (r1 & r2 & -> & Hs & Hp & _). simpl.
  transitivity (s * s - (r1 + r2) * s + r1 * r2); [ring|]. rewrite Hs, Hp. ring.
Qed.
Lemma qloop_poly th s : forall k off, roots_poly (qloop th off k) s =
  Cprod (fun i => s * s + expc th (off + 2 * i + 1) * s + expc th (off + 2 * i)) k.
Proof.
  induction k as [|k IH]; intros off; [reflexivity|]. cbn [qloop].
  rewrite roots_poly_app, IH, Cprod_shift, rpair_poly. f_equal.
  - unfold expc. rewrite Nat.mul_0_r, Nat.add_0_r. reflexivity.
  - apply Cprod_ext. intros i _. unfold expc. replace (off + 2 + 2 * i)%nat with (off + 2 * S i)%nat by lia. reflexivity.
Qed.
Lemma qroots_poly th off n s : roots_poly (qroots th off n) s = quad_poly th off n s.
Proof.
  unfold qroots, quad_poly. rewrite roots_poly_app, qloop_poly. f_equal. destruct (Nat.odd n); [|reflexivity].
  cbn [roots_poly]. unfold expc. replace ((- exp (nth (off + n - 1) th 0))%R, 0%R) with (- RtoC (exp (nth (off + n - 1) th 0)));
    [ring|]. apply C_eq; cbn [fst snd Copp RtoC]; lra.
Qed.

Theorem ARRoots_main p (th : list R) : (3 + p <= length th)%nat ->
  exists roots : list C, ARRoots AX p (map Fin th) = Ok (map FinC roots) /\ length roots = p /\
    (forall r, In r roots -> (fst r < 0)%R) /\ conj_closed roots /\ forall s, roots_poly roots s = quad_poly th 3 p s.
Proof.
  intros H. exists (qroots th 3 p). split; [apply quad_roots_Fin, H|]. split; [apply qroots_len|].
  split; [intros r; apply qroots_neg|]. split; [apply qroots_conj|]. apply qroots_poly.
Qed.

(** ** polynomial coefficients *)
Definition pstep (c : nat -> C) (r : C) (k : nat) : C := c k - r * match k with O => 0 | S k' => c k' end.
Definition pcoef (l : list C) (c : nat -> C) : nat -> C := fold_left pstep l c.
Definition delta0 (k : nat) : C := match k with O => 1 | S _ => 0 end.

Lemma pstep_ext c c' r : (forall k, c k = c' k) -> forall k, pstep c r k = pstep c' r k.
Proof. intros H k. unfold pstep. destruct k; rewrite ?H; reflexivity. Qed.
Lemma pcoef_ext l : forall c c', (forall k, c k = c' k) -> forall k, pcoef l c k = pcoef l c' k.
Proof.
  induction l as [|r l IH]; intros c c' H k; [apply H|]. apply (IH (pstep c r) (pstep c' r)). apply pstep_ext, H.
Qed.
Lemma pcoef_high l : forall (c : nat -> C) i, (forall k, (i < k)%nat -> c k = 0) -> forall k, (i + length l < k)%nat -> pcoef l c k = 0.
Proof.
  induction l as [|r l IH]; intros c i H k Hk; simpl in Hk; [apply H; lia|].
  apply (IH (pstep c r) (S i)); [|lia]. intros j Hj. unfold pstep. destruct j as [|j]; [lia|]. rewrite !H by lia. ring.
Qed.
Lemma pcoef_0 l : forall c, pcoef l c O = c O.
Proof. induction l as [|r l IH]; intros c; [reflexivity|]. cbn [pcoef fold_left]. fold (pcoef l (pstep c r)). rewrite IH. unfold pstep. ring. Qed.

Lemma pcoef_eval x l : forall (c : nat -> C) i, (forall k, (i < k)%nat -> c k = 0) ->
  Csum (fun k => pcoef l c k * Cpown x (i + length l - k)) (S (i + length l)) =
  Csum (fun k => c k * Cpown x (i - k)) (S i) * roots_poly l x.
Proof.
  induction l as [|r l IH]; intros c i H.
  - simpl length. rewrite Nat.add_0_r. simpl roots_poly. rewrite Cmult_1_r. reflexivity.
  - simpl length. replace (i + S (length l))%nat with (S i + length l)%nat by lia.
    cbn [pcoef fold_left]. fold (pcoef l (pstep c r)). rewrite IH.
    2:{ intros j Hj. unfold pstep. destruct j as [|j]; [lia|]. rewrite !H by lia. ring. }
    cbn [roots_poly]. rewrite Cmult_assoc. f_equal.
    unfold pstep. rewrite (Csum_ext _ (fun k => c k * Cpown x (S i - k) - r * (match k with O => 0 | S k' => c k' end * Cpown x (S i - k)))).
    2:{ intros k _. ring. }
    rewrite Csum_minus, Csum_scal. rewrite (Csum_shift (fun k => match k with O => 0 | S k' => c k' end * Cpown x (S i - k))).
    rewrite Csum_S, H by lia.
    rewrite (Csum_ext (fun k => c k * Cpown x (S i - k)) (fun k => x * (c k * Cpown x (i - k))) (S i)).
    2:{ intros k Hk. replace (S i - k)%nat with (S (i - k)) by lia. simpl. ring. }
    rewrite Csum_scal. change (fun k => c k * Cpown x (S i - S k)) with (fun k => c k * Cpown x (i - k)). ring.
Qed.

Lemma pcoef_perm l l' : Permutation l l' -> forall c k, pcoef l c k = pcoef l' c k.
Proof.
  induction 1 as [|r l l' _ IH|r s l|l1 l2 l3 _ IH1 _ IH2]; intros c k.
  - reflexivity.
  - apply IH.
  - apply (pcoef_ext l (pstep (pstep c s) r) (pstep (pstep c r) s)). intros j. unfold pstep. destruct j as [|[|j]]; ring.
  - rewrite IH1. apply IH2.
Qed.
Lemma pcoef_conj l : forall c k, Cconj (pcoef l c k) = pcoef (map Cconj l) (fun j => Cconj (c j)) k.
Proof.
  induction l as [|r l IH]; intros c k; [reflexivity|]. cbn [pcoef fold_left map].
  fold (pcoef l (pstep c r)). rewrite IH. apply pcoef_ext. intros j. unfold pstep.
  rewrite conj_minus, conj_mult. destruct j; [|reflexivity]. rewrite conj_R. reflexivity.
Qed.
Lemma pcoef_real l k : conj_closed l -> snd (pcoef l delta0 k) = 0%R.
Proof.
  intros H. apply real_of_conj. rewrite pcoef_conj, (pcoef_perm _ _ H). apply pcoef_ext.
  intros [|j]; apply conj_R.
Qed.

Lemma poly_step_len (l : list (cx AX)) i r : length (poly_step l i r) = length l.
Proof. unfold poly_step. apply vbuild_len. Qed.
Lemma poly_loop_Fin l : forall i (c : nat -> C) N (cs : list (cx AX)), (i + length l < N)%nat -> (forall k, (i < k)%nat -> c k = 0) ->
  length cs = N -> (forall k, (k < N)%nat -> vnth cs k = FinC (c k)) ->
  poly_loop (map FinC l) i cs = vbuild N (fun k => FinC (pcoef l c k)).
Proof.
  induction l as [|r l IH]; intros i c N cs HN Hc HL Hr; cbn [map poly_loop length] in *.
  - apply List.nth_ext with (d := c0 AX) (d' := c0 AX); [rewrite vbuild_len; exact HL|].
    intros k Hk. rewrite vbuild_nth by (rewrite <- HL; exact Hk). apply Hr. rewrite <- HL; exact Hk.
  - cbn [pcoef fold_left]. apply (IH (S i) (pstep c r) N).
    + lia.
    + intros j Hj. unfold pstep. destruct j as [|j]; [lia|]. rewrite !Hc by lia. ring.
    + rewrite poly_step_len. exact HL.
    + intros k Hk. unfold vnth. unfold poly_step. rewrite vbuild_nth by (rewrite HL; exact Hk).
      destruct k as [|k].
      * replace (1 <=? 0)%nat with false by reflexivity. cbn [andb]. rewrite Hr by lia. f_equal. unfold pstep. ring.
      * replace (1 <=? S k)%nat with true by reflexivity. cbn [andb]. replace (S k - 1)%nat with k by lia.
        destruct (Nat.leb_spec (S k) (i + 1)) as [E|E].
        -- rewrite !Hr by lia. rewrite FinC_mul, FinC_sub. reflexivity.
        -- rewrite Hr by lia. f_equal. unfold pstep. rewrite (Hc (S k)), (Hc k) by lia. ring.
Qed.

Lemma polycoefs_Fin l : polycoefs (map FinC l) = map (fun k => Fin (fst (pcoef l delta0 k))) (seq 0 (S (length l))).
Proof.
  unfold polycoefs. rewrite (poly_loop_Fin l 0 delta0 (S (length l))).
  - unfold vbuild. rewrite map_map. reflexivity.
  - lia.
  - intros [|k] H; [lia|reflexivity].
  - cbn [length]. rewrite repeat_length, map_length. reflexivity.
  - intros [|k] Hk; [reflexivity|]. unfold vnth. cbn [nth]. apply nth_repeat.
Qed.
Lemma polycoefs_main l : exists cs : list C, polycoefs (map FinC l) = map (fun c => Fin (fst c)) cs /\
  length cs = S (length l) /\ nth 0 cs 0 = 1 /\ (forall x, desc_poly cs x = roots_poly l x) /\
  (conj_closed l -> forall c, In c cs -> snd c = 0%R).
Proof.
  exists (map (pcoef l delta0) (seq 0 (S (length l)))). split; [rewrite polycoefs_Fin, map_map; reflexivity|].
  split; [rewrite map_length, seq_length; reflexivity|]. split; [cbn [seq map nth]; rewrite pcoef_0; reflexivity|].
  split.
  - intros x. unfold desc_poly. rewrite map_length, seq_length.
    rewrite (Csum_ext _ (fun k => pcoef l delta0 k * Cpown x (0 + length l - k))).
    2:{ intros k Hk. rewrite nth_map_seq by exact Hk. replace (S (length l) - 1 - k)%nat with (0 + length l - k)%nat by lia. reflexivity. }
    change (S (length l)) with (S (0 + length l)). rewrite pcoef_eval by (intros [|k] H; [lia|reflexivity]).
    simpl. ring.
  - intros H c Hc. apply in_map_iff in Hc. destruct Hc as (k & <- & _). apply pcoef_real, H.
Qed.

(** ** moving average coefficients *)
(** positive real coefficients up to n, zero above *)
Definition posc (c : nat -> C) (n : nat) : Prop :=
  exists d : nat -> R, (forall k, c k = RtoC (d k)) /\ (forall k, (k <= n)%nat -> (0 < d k)%R) /\ (forall k, (n < k)%nat -> d k = 0%R).
Lemma posc_ext c c' n : (forall k, c k = c' k) -> posc c n -> posc c' n.
Proof. intros H (d & H1 & H2 & H3). exists d. split; [|split; assumption]. intros k. rewrite <- H. apply H1. Qed.
Lemma posc_pair c n a b : posc c n -> posc (pcoef (rpair a b) c) (n + 2).
Proof.
  intros (d & H1 & H2 & H3). destruct (rpair_spec a b) as (r1 & r2 & -> & Hs & Hp & _).
  set (pr := fun k => match k with O => 0%R | S j => d j end). set (pr2 := fun k => match k with S (S j) => d j | _ => 0%R end).
  exists (fun k => (d k + exp b * pr k + exp a * pr2 k)%R).
  pose proof (exp_pos a). pose proof (exp_pos b).
  assert (forall k, (0 <= d k)%R) as Hd.
  { intros k. destruct (Nat.le_gt_cases k n); [left; apply H2; assumption|rewrite H3 by assumption; lra]. }
  assert (forall k, (0 <= pr k)%R) as Hpr by (intros [|k]; unfold pr; [lra|apply Hd]).
  assert (forall k, (0 <= pr2 k)%R) as Hpr2 by (intros [|[|k]]; unfold pr2; [lra|lra|apply Hd]).
  split; [|split].
  - intros k. rewrite !RtoC_plus, !RtoC_mult.
    transitivity (RtoC (d k) - (r1 + r2) * RtoC (pr k) + r1 * r2 * RtoC (pr2 k)); [|rewrite Hs, Hp; ring].
    unfold pcoef, fold_left, pstep. destruct k as [|[|k]]; rewrite ?H1; unfold pr, pr2; ring.
  - intros k Hk. pose proof (Hd k). pose proof (Hpr k). pose proof (Hpr2 k).
    destruct (Nat.le_gt_cases k n) as [E|E].
    + pose proof (H2 k E). assert (0 <= exp b * pr k)%R by (apply Rmult_le_pos; lra).
      assert (0 <= exp a * pr2 k)%R by (apply Rmult_le_pos; lra). lra.
    + destruct (Nat.eq_dec k (n + 1)) as [->|E2].
      * assert (0 < pr (n + 1)%nat)%R by (replace (n + 1)%nat with (S n) by lia; apply H2; lia).
        assert (0 < exp b * pr (n + 1)%nat)%R by (apply Rmult_lt_0_compat; lra).
        assert (0 <= exp a * pr2 (n + 1)%nat)%R by (apply Rmult_le_pos; lra). lra.
      * assert (0 < pr2 k)%R by (replace k with (S (S n)) by lia; apply H2; lia).
        assert (0 <= exp b * pr k)%R by (apply Rmult_le_pos; lra).
        assert (0 < exp a * pr2 k)%R by (apply Rmult_lt_0_compat; lra). lra.
  - intros k Hk. destruct k as [|[|k]]; try lia. unfold pr, pr2. rewrite !H3 by lia. ring.
Qed.
Lemma posc_real c n a : posc c n -> posc (pcoef [((- exp a)%R, 0%R)] c) (n + 1).
Proof.
  intros (d & H1 & H2 & H3). exists (fun k => (d k + exp a * match k with O => 0 | S j => d j end)%R).
  pose proof (exp_pos a).
  assert (forall k, (0 <= d k)%R) as Hd.
  { intros k. destruct (Nat.le_gt_cases k n); [left; apply H2; assumption|rewrite H3 by assumption; lra]. }
  split; [|split].
  - intros k. cbn [pcoef fold_left]. unfold pstep. rewrite RtoC_plus, RtoC_mult.
    replace ((- exp a)%R, 0%R) with (- RtoC (exp a)) by (apply C_eq; cbn [fst snd Copp RtoC]; lra).
    destruct k; rewrite ?H1; ring.
  - intros [|k] Hk.
    + pose proof (H2 O ltac:(lia)). lra.
    + pose proof (Hd (S k)). pose proof (H2 k ltac:(lia)).
      assert (0 < exp a * d k)%R by (apply Rmult_lt_0_compat; lra). lra.
  - intros [|k] Hk; [lia|]. rewrite !H3 by lia. ring.
Qed.
Lemma pcoef_app l l' c k : pcoef (l ++ l') c k = pcoef l' (pcoef l c) k.
Proof. unfold pcoef. rewrite fold_left_app. reflexivity. Qed.
Lemma posc_qloop th : forall k off c n, posc c n -> posc (pcoef (qloop th off k) c) (n + 2 * k).
Proof.
  induction k as [|k IH]; intros off c n H; [rewrite Nat.add_0_r; exact H|]. cbn [qloop].
  apply (posc_ext (pcoef (qloop th (off + 2) k) (pcoef (rpair (nth off th 0%R) (nth (off + 1) th 0%R)) c))).
  - intros j. symmetry. apply pcoef_app.
  - replace (n + 2 * S k)%nat with (n + 2 + 2 * k)%nat by lia. apply IH, posc_pair, H.
Qed.
Lemma posc_qroots th off n : posc (pcoef (qroots th off n) delta0) n.
Proof.
  assert (posc delta0 0) as H0.
  { exists (fun k => match k with O => 1%R | S _ => 0%R end). split; [intros [|k]; reflexivity|]. split.
    - intros k Hk. replace k with O by lia. lra.
    - intros [|k] Hk; [lia|reflexivity]. }
  apply (posc_ext (pcoef (if Nat.odd n then [((- exp (nth (off + n - 1) th 0))%R, 0%R)] else []) (pcoef (qloop th off (n / 2)) delta0))).
  - intros j. symmetry. apply pcoef_app.
  - pose proof (half2 n) as Hn. revert Hn. destruct (Nat.odd n); intros Hn.
    + rewrite Hn at 3. apply posc_real. apply posc_qloop with (n := O), H0.
    + rewrite Hn at 2. rewrite Nat.add_0_r. apply (posc_qloop th (n / 2) off delta0 O H0).
Qed.

Lemma ma_fill_ok p q (f : nat -> xr) : (q < p)%nat ->
  ma_fill AX p q (map f (seq 0 (S q))) = Ok (map (fun i => if (i <=? q)%nat then f (q - i)%nat else Fin 0) (seq 0 p)).
Proof.
  intros Hq. unfold ma_fill. change (zeros AX p) with (repeat (Fin 0) p).
  set (g := fun i => f (q - i)%nat). set (z := repeat (Fin 0) p).
  assert (length z = p) as HL by apply repeat_length.
  pose proof (@for_exact (list xr) (fun i ma => bind (vget (map f (seq 0 (S q))) (q - i)) (fun c => vset ma i c))
                (fun i => filled g i z) 0 (q + 1)) as H.
  eapply eq_trans; [apply H|].
  - intros i _ Hi. rewrite vget_ok with (d := f O) by (rewrite map_length, seq_length; lia). cbn [bind].
    rewrite vset_ok by (rewrite filled_length; lia). f_equal.
    rewrite nth_map_seq by lia. apply (upd_filled g). lia.
  - f_equal. apply List.nth_ext with (d := Fin 0) (d' := Fin 0).
    + rewrite filled_length by lia. rewrite map_length, seq_length. exact HL.
    + rewrite filled_length by lia. rewrite HL. intros i Hi. rewrite nth_map_seq by exact Hi.
      destruct (Nat.leb_spec i q) as [E|E].
      * rewrite nth_filled by lia. reflexivity.
      * unfold filled. rewrite app_nth2 by (rewrite map_length, seq_length; lia).
        rewrite map_length, seq_length.
        assert (forall (m : nat) (l : list xr) j, nth j (skipn m l) (Fin 0) = nth (m + j) l (Fin 0)) as Hsk.
        { intros m l; revert m; induction l as [|a l IH]; intros [|m] j; cbn; try reflexivity; [destruct j; reflexivity|apply IH]. }
        rewrite Hsk. replace (0 + (q + 1) + (i - (0 + (q + 1))))%nat with i by lia. apply nth_repeat.
Qed.

Lemma Csum_split (f : nat -> C) n m : Csum f (n + m) = Csum f n + Csum (fun k => f (n + k)%nat) m.
Proof.
  induction m as [|m IH]; [rewrite Nat.add_0_r; simpl; ring|]. rewrite Nat.add_succ_r. cbn [Csum]. rewrite IH. ring.
Qed.
Lemma Csum_rev (f : nat -> C) n : Csum f (S n) = Csum (fun k => f (n - k)%nat) (S n).
Proof.
  induction n as [|n IH]; [reflexivity|]. rewrite (Csum_shift (fun k => f (S n - k)%nat)).
  rewrite Csum_S, IH. rewrite Nat.sub_0_r. rewrite Cplus_comm. reflexivity.
Qed.

Lemma ExtractMA_carma_main p q (th : list R) : (q < p)%nat -> (3 + p + q <= length th)%nat ->
  exists ma : list R, ExtractMA_carma AX p q (map Fin th) = Ok (map Fin ma) /\ length ma = p /\ nth 0 ma 0%R = 1%R /\
    (forall i, (i <= q)%nat -> (0 < nth i ma 0)%R) /\ (forall i, (q < i)%nat -> nth i ma 0%R = 0%R) /\
    (forall z, ma_poly ma z * quad_poly th (3 + p) q 0 = quad_poly th (3 + p) q z) /\
    (forall z, ma_poly ma z = 0 -> (fst z < 0)%R).
Proof.
  intros Hq HL. set (rt := qroots th (3 + p) q). destruct (posc_qroots th (3 + p) q) as (d & H1 & H2 & H3). fold rt in H1.
  set (ma := map (fun i => if (i <=? q)%nat then (d (q - i)%nat / d q)%R else 0%R) (seq 0 p)).
  assert (0 < d q)%R as Hdq by (apply H2; lia).
  assert (length rt = q) as Hlen by apply qroots_len.
  assert (forall i, nth i ma 0%R = if (i <=? q)%nat then (d (q - i)%nat / d q)%R else 0%R) as Hma.
  { intros i. unfold ma. destruct (Nat.lt_ge_cases i p) as [E|E].
    - apply nth_map_seq with (f := fun i => if (i <=? q)%nat then (d (q - i)%nat / d q)%R else 0%R), E.
    - rewrite nth_overflow by (rewrite map_length, seq_length; exact E). destruct (Nat.leb_spec i q); [lia|reflexivity]. }
  exists ma. assert (length ma = p) as Hlma by (unfold ma; rewrite map_length, seq_length; reflexivity).
  assert (forall z, ma_poly ma z * quad_poly th (3 + p) q 0 = quad_poly th (3 + p) q z) as Hpoly.
  { assert (forall z, Csum (fun k => RtoC (d (q - k)%nat) * Cpown z k) (S q) = quad_poly th (3 + p) q z) as Hq1.
    { intros z. rewrite <- qroots_poly. fold rt. rewrite Csum_rev.
      pose proof (pcoef_eval z rt delta0 0) as He. rewrite Hlen in He. cbn [Nat.add] in He.
      transitivity (Csum (fun k => pcoef rt delta0 k * Cpown z (q - k)) (S q)).
      - apply Csum_ext. intros k Hk. rewrite H1. replace (q - (q - k))%nat with k by lia. reflexivity.
      - rewrite He by (intros [|k] E; [lia|reflexivity]). simpl. ring. }
    assert (quad_poly th (3 + p) q 0 = RtoC (d q)) as Hq0.
    { rewrite <- Hq1. rewrite Csum_shift, Nat.sub_0_r. rewrite Csum_0; [simpl; ring|]. intros k _. simpl. ring. }
    intros z. rewrite Hq0, <- Hq1. unfold ma_poly. rewrite Hlma. replace p with (S q + (p - S q))%nat by lia.
    rewrite Csum_split, (Csum_0 (fun k => RtoC (nth (S q + k) ma 0%R) * Cpown z (S q + k))).
    2:{ intros k _. rewrite Hma. destruct (Nat.leb_spec (S q + k) q); [lia|]. ring. }
    rewrite Cplus_0_r, <- Csum_scal_r. apply Csum_ext. intros k Hk. rewrite Hma.
    destruct (Nat.leb_spec k q); [|lia]. rewrite RtoC_div by lra. field. apply RtoC_neq0. lra. }
  split; [|split; [exact Hlma|split; [|split; [|split; [|split; [exact Hpoly|]]]]]].
  - unfold ExtractMA_carma. rewrite quad_roots_Fin by exact HL. cbn [bind]. fold rt.
    rewrite polycoefs_Fin, Hlen.
    rewrite vget_ok with (d := Fin 0) by (rewrite map_length, seq_length; lia). cbn [bind].
    rewrite nth_map_seq by lia. rewrite map_map.
    rewrite (map_ext _ (fun k => Fin (d k / d q))).
    2:{ intros k. rewrite !H1. cbn [fst RtoC]. apply (fin_div (d k) (d q)). lra. }
    rewrite ma_fill_ok by exact Hq. unfold ma. rewrite map_map. f_equal. apply map_ext. intros i.
    destruct (i <=? q)%nat; reflexivity.
  - rewrite Hma. destruct (Nat.leb_spec 0 q); [|lia]. rewrite Nat.sub_0_r. apply Rinv_r. lra.
  - intros i Hi. rewrite Hma. destruct (Nat.leb_spec i q); [|lia].
    apply Rdiv_lt_0_compat; [apply H2; lia|exact Hdq].
  - intros i Hi. rewrite Hma. destruct (Nat.leb_spec i q); [lia|]. reflexivity.
  - intros z Hz. pose proof (Hpoly z) as E. rewrite Hz, <- qroots_poly in E. apply (qroots_neg th (3 + p) q).
    apply roots_poly_0. rewrite qroots_poly, <- Hpoly, Hz. ring.
Qed.

(** q >= p: an exception, whatever the arithmetic *)
Lemma quad_loop_len A (th : list (F A)) : forall k off r, quad_loop A th off k = Ok r -> length r = (2 * k)%nat.
Proof.
  induction k as [|k IH]; intros off r H; cbn [quad_loop] in H.
  - injection H as <-. reflexivity.
  - apply bind_Ok in H. destruct H as (t1 & _ & H). apply bind_Ok in H. destruct H as (t2 & _ & H).
    apply bind_Ok in H. destruct H as (r' & H' & H). injection H as <-. rewrite app_length, (IH _ _ H').
    unfold quad_pair. destruct (flt _ _ _); cbn [length]; lia.
Qed.
Lemma quad_roots_len A (th : list (F A)) off n r : quad_roots A th off n = Ok r -> length r = n.
Proof.
  unfold quad_roots. intros H. apply bind_Ok in H. destruct H as (r0 & H0 & H). apply quad_loop_len in H0.
  pose proof (half2 n) as Hn. revert Hn H. destruct (Nat.odd n); intros Hn H.
  - apply bind_Ok in H. destruct H as (t & _ & H). injection H as <-. rewrite app_length, H0. cbn [length]. lia.
  - injection H as <-. lia.
Qed.
Lemma vget_cases T (l : list T) i : (exists x, vget l i = Ok x) \/ vget l i = Throw Elogic.
Proof. unfold vget. destruct (nth_error l i); eauto. Qed.
Lemma quad_loop_cases A (th : list (F A)) : forall k off, (exists r, quad_loop A th off k = Ok r) \/ quad_loop A th off k = Throw Elogic.
Proof.
  induction k as [|k IH]; intros off; cbn [quad_loop]; [eauto|].
  destruct (vget_cases _ th off) as [[x ->]| ->]; cbn [bind]; [|auto].
  destruct (vget_cases _ th (off + 1)) as [[y ->]| ->]; cbn [bind]; [|auto].
  destruct (IH (off + 2)%nat) as [[r ->]| ->]; cbn [bind]; eauto.
Qed.
Lemma quad_roots_cases A (th : list (F A)) off n : (exists r, quad_roots A th off n = Ok r) \/ quad_roots A th off n = Throw Elogic.
Proof.
  unfold quad_roots. destruct (quad_loop_cases A th (n / 2) off) as [[r ->]| ->]; cbn [bind]; [|auto].
  destruct (Nat.odd n); [|eauto]. destruct (vget_cases _ th (off + n - 1)) as [[y ->]| ->]; cbn [bind]; eauto.
Qed.
Lemma poly_loop_len A (l : list (cx A)) : forall i cs, length (poly_loop l i cs) = length cs.
Proof. induction l as [|r l IH]; intros i cs; [reflexivity|]. cbn [poly_loop]. rewrite IH. apply vbuild_len. Qed.
Lemma polycoefs_len A (l : list (cx A)) : length (polycoefs l) = S (length l).
Proof. unfold polycoefs. etransitivity; [apply map_length|]. etransitivity; [apply poly_loop_len|]. cbn [length]. rewrite repeat_length. reflexivity. Qed.
Lemma ma_fill_throw A p q (poly : list (F A)) : (p <= q)%nat -> length poly = S q -> ma_fill A p q poly = Throw Elogic.
Proof.
  intros Hpq HL. unfold ma_fill. replace (q + 1)%nat with (p + S (q - p))%nat by lia. rewrite for_split.
  destruct poly as [|d0 poly'] eqn:Ep; [discriminate|]. rewrite <- Ep in *.
  set (g := fun i => nth (q - i) poly d0).
  set (body := fun (i : nat) (ma : list (F A)) => bind (vget poly (q - i)) (fun c => vset ma i c)).
  assert (length (zeros A p) = p) as Hz by apply repeat_length.
  assert (for_ 0 p body (zeros A p) = Ok (filled g p (zeros A p))) as E.
  { apply (@for_exact _ body (fun i => filled g i (zeros A p)) 0 p). intros i _ Hi. unfold body.
    rewrite vget_ok with (d := d0) by lia. cbn [bind].
    rewrite vset_ok by (rewrite filled_length; rewrite Hz; lia). f_equal. apply (upd_filled g). rewrite Hz; lia. }
  fold body. rewrite E. cbn [bind]. cbn [for_ Nat.add]. unfold body at 1. rewrite vget_ok with (d := d0) by lia. cbn [bind].
  unfold vset. rewrite filled_length by (rewrite Hz; lia). rewrite Hz, Nat.ltb_irrefl. reflexivity.
Qed.
Lemma ExtractMA_carma_throws A p q (theta : list (F A)) : (p <= q)%nat -> ExtractMA_carma A p q theta = Throw Elogic.
Proof.
  intros Hpq. unfold ExtractMA_carma. destruct (quad_roots_cases A theta (3 + p) q) as [[r E]|E]; rewrite E; [|reflexivity].
  cbn [bind]. apply quad_roots_len in E. assert (length (polycoefs r) = S q) as HL by (rewrite polycoefs_len, E; reflexivity).
  destruct (polycoefs r) as [|d0 poly] eqn:Ep; [discriminate|]. rewrite <- Ep in *.
  rewrite vget_ok with (d := d0) by lia. cbn [bind]. apply ma_fill_throw; [exact Hpq|]. rewrite map_length. exact HL.
Qed.

(** ** Belcher coefficients *)
Lemma binom_high : forall n k, (n < k)%nat -> binom n k = 0%Z.
Proof.
  induction n as [|n IH]; intros [|k] H; try lia; cbn [binom]; [reflexivity|]. rewrite !IH by lia. reflexivity.
Qed.
Lemma binom_0 n : binom n 0 = 1%Z.
Proof. destruct n; reflexivity. Qed.
Lemma binomial_C w : forall n, Csum (fun i => RtoC (IZR (binom n i)) * Cpown w i) (S n) = Cpown (1 + w) n.
Proof.
  induction n as [|n IH]; [simpl; ring|]. cbn [Cpown]. rewrite <- IH. rewrite Csum_shift, binom_0.
  rewrite (Csum_ext (fun k => RtoC (IZR (binom (S n) (S k))) * Cpown w (S k))
             (fun k => w * (RtoC (IZR (binom n k)) * Cpown w k) + RtoC (IZR (binom n (S k))) * Cpown w (S k))).
  2:{ intros k _. cbn [binom Cpown]. rewrite plus_IZR, RtoC_plus. ring. }
  rewrite Csum_plus, Csum_scal. rewrite (Csum_S (fun k => RtoC (IZR (binom n (S k))) * Cpown w (S k))), (binom_high n (S n)) by lia.
  set (S1 := Csum (fun k => RtoC (IZR (binom n k)) * Cpown w k) (S n)).
  assert (S1 = 1 + Csum (fun k => RtoC (IZR (binom n (S k))) * Cpown w (S k)) n) as E.
  { unfold S1. rewrite Csum_shift, binom_0. simpl (Cpown w 0). ring. }
  transitivity (w * S1 + (1 + Csum (fun k => RtoC (IZR (binom n (S k))) * Cpown w (S k)) n)); [simpl (Cpown w 0); ring|].
  rewrite <- E. ring.
Qed.
Lemma belcher_Fin p k : (1 <= p)%nat -> (0 < k)%R ->
  belcher AX p (Fin k) = Ok (map Fin (map (fun i => (IZR (binom (p - 1) i) / k ^ i)%R) (seq 0 p))).
Proof.
  intros Hp Hk. unfold belcher. destruct (Nat.eqb_spec p 0); [lia|]. f_equal. unfold vbuild. rewrite map_map.
  apply map_ext. intros i. destruct (Nat.eqb_spec i 0) as [->|Hi].
  - rewrite binom_0. cbn. f_equal. field.
  - cbn [fpow fdiv fofZ AX]. unfold xpow, rsgn. destruct (Rlt_dec k 0); [lra|]. destruct (Rlt_dec 0 k); [|lra].
    rewrite <- INR_IZR_INZ, Rpower_pow by exact Hk. apply fin_div. apply pow_nonzero. lra.
Qed.
Lemma Cpown_mult a b n : Cpown (a * b) n = Cpown a n * Cpown b n.
Proof. induction n as [|n IH]; simpl; [ring|]. rewrite IH. ring. Qed.
Lemma Cpown_R r n : Cpown (RtoC r) n = RtoC (r ^ n).
Proof. induction n as [|n IH]; simpl; [reflexivity|]. rewrite IH, RtoC_mult. reflexivity. Qed.
Lemma Cpown_1 n : Cpown 1 n = 1.
Proof. induction n as [|n IH]; simpl; [reflexivity|]. rewrite IH. ring. Qed.
Lemma belcher_poly p k z : (1 <= p)%nat -> (0 < k)%R ->
  ma_poly (map (fun i => (IZR (binom (p - 1) i) / k ^ i)%R) (seq 0 p)) z = Cpown (1 + z / RtoC k) (p - 1).
Proof.
  intros Hp Hk. rewrite <- binomial_C. unfold ma_poly. rewrite map_length, seq_length.
  replace (S (p - 1)) with p by lia. apply Csum_ext. intros i Hi.
  rewrite nth_map_seq with (f := fun i => (IZR (binom (p - 1) i) / k ^ i)%R) by exact Hi.
  pose proof (pow_nonzero k i ltac:(lra)) as Hn. rewrite RtoC_div by exact Hn.
  assert (Cpown (z / RtoC k) i * RtoC (k ^ i) = Cpown z i) as <-.
  { rewrite <- Cpown_R, <- Cpown_mult. f_equal. field. apply RtoC_neq0. lra. }
  field. apply RtoC_neq0, Hn.
Qed.

(** ** logit *)
Definition rinv_logit (x : R) : R := (exp x / (1 + exp x))%R.
Lemma inv_logit_Fin x : inv_logit AX (Fin x) = Fin (rinv_logit x).
Proof. unfold inv_logit. cbn [fexp fadd fdiv fofZ AX xexp xadd]. apply fin_div. pose proof (exp_pos x). lra. Qed.
Lemma rinv_logit_range x : (0 < rinv_logit x < 1)%R.
Proof.
  unfold rinv_logit. pose proof (exp_pos x). split; [apply Rdiv_lt_0_compat; lra|].
  apply (Rmult_lt_reg_r (1 + exp x)); [lra|]. unfold Rdiv. rewrite Rmult_assoc, Rinv_l by lra. lra.
Qed.
Lemma logit_inv_logit x : logit AX (inv_logit AX (Fin x)) = Fin x.
Proof.
  rewrite inv_logit_Fin. unfold logit. cbn [fdiv fsub fofZ flog AX xsub]. pose proof (exp_pos x). pose proof (rinv_logit_range x).
  rewrite fin_div by lra. replace (rinv_logit x / (1 - rinv_logit x))%R with (exp x) by (unfold rinv_logit; field; lra).
  rewrite fin_log by exact H. rewrite ln_exp. reflexivity.
Qed.
Lemma inv_logit_logit u : (0 < u < 1)%R -> inv_logit AX (logit AX (Fin u)) = Fin u.
Proof.
  intros H. unfold logit. cbn [fdiv fsub fofZ flog AX xsub]. rewrite fin_div by lra.
  assert (0 < u / (1 - u))%R as Hp by (apply Rdiv_lt_0_compat; lra).
  rewrite fin_log by exact Hp. rewrite inv_logit_Fin. f_equal. unfold rinv_logit. rewrite exp_ln by exact Hp. field. lra.
Qed.

Lemma ExtractMA_zcarma_main p klow khigh (th : list R) : (1 <= p)%nat -> (4 + p <= length th)%nat -> (0 < klow < khigh)%R ->
  exists (ma : list R) (kappa : R), ExtractMA_zcarma AX p (Fin klow) (Fin khigh) (map Fin th) = Ok (map Fin ma) /\
    (klow < kappa < khigh)%R /\ length ma = p /\
    logit AX (Fin ((kappa - klow) / (khigh - klow))%R) = Fin (nth (3 + p) th 0%R) /\
    (forall z, ma_poly ma z = Cpown (1 + z / RtoC kappa) (p - 1)).
Proof.
  intros Hp HL Hk. set (t := nth (3 + p) th 0%R). pose proof (rinv_logit_range t) as Hr.
  set (kappa := ((khigh - klow) * rinv_logit t + klow)%R).
  assert (klow < kappa < khigh)%R as Hkap by (unfold kappa; nra).
  exists (map (fun i => (IZR (binom (p - 1) i) / kappa ^ i)%R) (seq 0 p)), kappa. split; [|split; [exact Hkap|split; [|split]]].
  - unfold ExtractMA_zcarma. rewrite vget_Fin by lia. cbn [bind]. fold t. rewrite inv_logit_Fin.
    cbn [fmul fadd fsub AX xmul xadd xsub]. fold kappa. apply belcher_Fin; [exact Hp|lra].
  - rewrite map_length, seq_length. reflexivity.
  - replace ((kappa - klow) / (khigh - klow))%R with (rinv_logit t) by (unfold kappa; field; lra).
    rewrite <- inv_logit_Fin. apply logit_inv_logit.
  - intros z. apply belcher_poly; [exact Hp|lra].
Qed.
