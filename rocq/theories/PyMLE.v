(** get_mle and choose_order. *)
From Coq Require Import Reals List Arith ZArith Bool Lia Lra.
From Verif Require Import Arith Res ListLemmas Spec Emb PyModel.
Import ListNotations.
Set Implicit Arguments.
Unset Strict Implicit.
Local Open Scope R_scope.

Section Sel.
Variable T : Type.
Variable key : T -> xr.
Definition sel (best x : T) : T := if xlt (key x) (key best) then x else best.

Lemma xlt_trans a b c : xlt a b = true -> xlt b c = true -> xlt a c = true.
Proof.
  destruct a, b, c; cbn; try discriminate; try reflexivity. destruct (Rlt_dec r r0), (Rlt_dec r0 r1), (Rlt_dec r r1); try discriminate; try reflexivity. lra.
Qed.
Lemma xlt_irr a : xlt a a = false.
Proof. destruct a; cbn; try reflexivity. destruct (Rlt_dec r r); [lra|reflexivity]. Qed.
(** not below b, and c below b: not below c *)
Lemma xlt_neg a b c : xlt a b = false -> xlt c b = true -> xlt a c = false.
Proof. intros H1 H2. destruct (xlt a c) eqn:E; [|reflexivity]. rewrite (xlt_trans E H2) in H1. discriminate. Qed.
Lemma xlt_total a b : a <> NaN -> b <> NaN -> xlt a b = false -> xlt b a = true \/ a = b.
Proof.
  intros Ha Hb. destruct a, b; cbn; auto; try discriminate; try congruence.
  destruct (Rlt_dec r r0); [discriminate|]. intros _. destruct (Rlt_dec r0 r); [left; reflexivity|right; f_equal; lra].
Qed.
Lemma xlt_notNaN a b : xlt a b = true -> a <> NaN /\ b <> NaN.
Proof. destruct a, b; cbn; try discriminate; split; congruence. Qed.

(** the first strict minimum *)
Definition first_min (l : list T) (i : nat) (r : T) : Prop :=
  nth_error l i = Some r /\ (forall x, In x l -> xlt (key x) (key r) = false) /\
  (forall j x, (j < i)%nat -> nth_error l j = Some x -> key x = NaN \/ xlt (key r) (key x) = true).

Lemma sel_spec l : forall init, key init <> NaN ->
  let r := fold_left sel l init in
  (r = init /\ forall x, In x l -> xlt (key x) (key init) = false) \/
  (xlt (key r) (key init) = true /\ exists i, first_min l i r).
Proof.
  induction l as [|x l IH] using rev_ind; intros init H0; cbn zeta.
  - left. split; [reflexivity|contradiction].
  - rewrite fold_left_app. cbn [fold_left]. destruct (IH init H0) as [(E & F)|(L & i & N & M & B)].
    + rewrite E. unfold sel. destruct (xlt (key x) (key init)) eqn:X.
      * right. split; [exact X|]. exists (length l). split; [rewrite nth_error_app2, Nat.sub_diag by lia; reflexivity|]. split.
        -- intros z Hz. apply in_app_iff in Hz. destruct Hz as [Hz|[<-|[]]]; [exact (xlt_neg (F z Hz) X)|apply xlt_irr].
        -- intros j z Hj Hz. rewrite nth_error_app1 in Hz by exact Hj. apply nth_error_In in Hz. specialize (F z Hz).
           destruct (key z) eqn:Ez; [right|right|right|left; reflexivity]; rewrite <- Ez in *;
           (destruct (@xlt_total (key z) (key init)) as [K|K]; [congruence|exact H0|exact F|exact (xlt_trans X K)|rewrite K; exact X]).
      * left. split; [reflexivity|]. intros z Hz. apply in_app_iff in Hz. destruct Hz as [Hz|[<-|[]]]; [exact (F z Hz)|exact X].
    + set (b := fold_left sel l init) in *. clearbody b. unfold sel. destruct (xlt_notNaN L) as (Nb & _). destruct (xlt (key x) (key b)) eqn:X.
      * right. split; [exact (xlt_trans X L)|]. exists (length l). split; [rewrite nth_error_app2, Nat.sub_diag by lia; reflexivity|]. split.
        -- intros z Hz. apply in_app_iff in Hz. destruct Hz as [Hz|[<-|[]]]; [exact (xlt_neg (M z Hz) X)|apply xlt_irr].
        -- intros j z Hj Hz. rewrite nth_error_app1 in Hz by exact Hj. apply nth_error_In in Hz. specialize (M z Hz).
           destruct (key z) eqn:Ez; [right|right|right|left; reflexivity]; rewrite <- Ez in *;
           (destruct (@xlt_total (key z) (key b)) as [K|K]; [congruence|exact Nb|exact M|exact (xlt_trans X K)|rewrite K; exact X]).
      * right. split; [exact L|]. exists i. assert (i < length l)%nat as Hi by (apply nth_error_Some; congruence). split; [rewrite nth_error_app1 by exact Hi; exact N|]. split.
        -- intros z Hz. apply in_app_iff in Hz. destruct Hz as [Hz|[<-|[]]]; [exact (M z Hz)|exact X].
        -- intros j z Hj Hz. rewrite nth_error_app1 in Hz by lia. exact (B j z Hj Hz).
Qed.
(** a NaN start is never replaced *)
Lemma sel_NaN l : forall init, key init = NaN -> fold_left sel l init = init.
Proof.
  induction l as [|x l IH]; intros init H; [reflexivity|]. cbn [fold_left].
  assert (sel init x = init) as -> by (unfold sel; rewrite H; destruct (key x); reflexivity). exact (IH init H).
Qed.
(** starting from the head of the list *)
Lemma sel_head x l : key x <> NaN -> exists i, first_min (x :: l) i (fold_left sel (x :: l) x).
Proof.
  intros H. destruct (@sel_spec (x :: l) x H) as [(E & F)|(L & i & M)].
  - exists O. rewrite E. split; [reflexivity|]. split; [exact F|]. intros j z Hj. lia.
  - exists i. exact M.
Qed.
End Sel.

(** ** get_mle *)

(** the number of processes actually used *)
Definition jobs (cpus njobs : Z) : Z := if Z.eqb njobs (-1) then cpus else njobs.

Lemma get_mle_serial (A : Arith) cpus njobs trials : jobs cpus njobs = 1%Z -> get_mle (A := A) cpus njobs trials = Throw Elogic.
Proof. unfold get_mle, jobs. intros ->. reflexivity. Qed.

Theorem get_mle_best cpus njobs (m0 : opt AX) trials : jobs cpus njobs <> 1%Z ->
  (o_fun m0 <> NaN -> exists i r, get_mle cpus njobs (m0 :: trials) = Ok r /\ first_min (@o_fun AX) (m0 :: trials) i r) /\
  (o_fun m0 = NaN -> get_mle cpus njobs (m0 :: trials) = Ok m0).
Proof.
  unfold get_mle, jobs. intros H. apply Z.eqb_neq in H. rewrite H. split; intros N.
  - destruct (sel_head (key := @o_fun AX) trials N) as (i & M). exists i. eexists. split; [reflexivity|exact M].
  - f_equal. exact (@sel_NaN _ (@o_fun AX) (m0 :: trials) m0 N).
Qed.

(** ** choose_order *)

(** AICc of a model with k parameters and minus log-likelihood f, for n measurements (Hurvich and Tsai 1989) *)
Definition aicc_spec (n k : nat) (f : R) : R := 2 * INR k + 2 * f + 2 * INR k * (INR k + 1) / (INR n - INR k - 1).
Definition aicc (n : nat) (pq : nat * nat) (f : xr) : xr :=
  match f with Fin f => Fin (aicc_spec n (2 + fst pq + snd pq) f) | x => x end.

Lemma py_aicc_spec n pq f : (n <> 2 + fst pq + snd pq + 1)%nat -> py_aicc AX n pq f = Ok (aicc n pq f).
Proof.
  intros H. unfold py_aicc, aicc, aicc_spec. set (k := (2 + fst pq + snd pq)%nat) in *.
  change (fofZ AX (Z.of_nat k)) with (Fin (IZR (Z.of_nat k))). change (fofZ AX (Z.of_nat n)) with (Fin (IZR (Z.of_nat n))). rewrite <- !INR_IZR_INZ.
  cbn [AX F fofZ fsub fmul fadd xsub xadd xmul xneg feq xeq].
  assert (INR n - INR k - 1 <> 0) as D.
  { intros E. apply H. apply INR_eq. rewrite plus_INR. cbn [INR]. lra. }
  change (INR n + - INR k + -(1)) with (INR n - INR k - 1).
  destruct (Req_EM_T (INR n - INR k - 1) 0) as [E|E]; [contradiction|].
  assert (forall a, fdiv AX (Fin a) (Fin (INR n - INR k - 1)) = Fin (a / (INR n - INR k - 1))) as Q by (intros a; apply fin_div; exact E).
  rewrite Q. assert (rsgn 2 = Gt) as G by (unfold rsgn; destruct (Rlt_dec 2 0); [lra|]; destruct (Rlt_dec 0 2); [reflexivity|lra]).
  destruct f; cbn [xmul xadd]; rewrite ?G; cbn [xinf_times xadd]; reflexivity.
Qed.
Lemma py_aicc_zero n pq f : (n = 2 + fst pq + snd pq + 1)%nat -> py_aicc AX n pq f = Throw Elogic.
Proof.
  intros H. unfold py_aicc. set (k := (2 + fst pq + snd pq)%nat) in *.
  change (fofZ AX (Z.of_nat k)) with (Fin (IZR (Z.of_nat k))). change (fofZ AX (Z.of_nat n)) with (Fin (IZR (Z.of_nat n))). rewrite <- !INR_IZR_INZ.
  cbn [AX F fofZ fsub fmul fadd xsub xadd xmul xneg feq xeq]. rewrite H, plus_INR. cbn [INR].
  destruct (Req_EM_T _ 0) as [E|E]; [reflexivity|]. exfalso. apply E. lra.
Qed.

Lemma mles_inv (A : Arith) (f : nat * nat -> res (opt A)) l : forall ms, length ms = length l ->
  (forall i pq m, nth_error l i = Some pq -> nth_error ms i = Some m -> f pq = Ok m) -> mles f l = Ok ms.
Proof.
  induction l as [|pq l IH]; intros [|m ms] H F; try discriminate; [reflexivity|]. cbn [mles].
  rewrite (F O pq m eq_refl eq_refl). cbn [bind]. rewrite (IH ms); [reflexivity|injection H; auto|].
  intros i pq' m' H1 H2. exact (F (S i) pq' m' H1 H2).
Qed.

(** a candidate: AICc, estimate, order *)
Definition cand : Type := (xr * (opt AX * (nat * nat)))%type.
Lemma order_loop_spec n (l : list (opt AX * (nat * nat))) : (forall m pq, In (m, pq) l -> n <> 2 + fst pq + snd pq + 1)%nat -> forall st : ostate AX,
  let cs : list cand := map (fun x : opt AX * (nat * nat) => (aicc n (snd x) (o_fun (fst x)), x)) l in
  let r := fold_left (sel (@fst xr (opt AX * (nat * nat)))) cs (os_best st, (os_mle st, (os_p st, os_q st))) in
  order_loop n l st = Ok (mkOS (A := AX) (fst r) (fst (snd r)) (os_aicc st ++ map fst cs) (fst (snd (snd r))) (snd (snd (snd r)))).
Proof.
  induction l as [|(m, pq) l IH]; intros H st; cbn zeta.
  - cbn. rewrite app_nil_r. destruct st; reflexivity.
  - cbn [order_loop map fst snd fold_left]. unfold order_step. rewrite py_aicc_spec by (apply (H m), or_introl; reflexivity). cbn [bind].
    rewrite IH by (intros m' pq' Hm; apply (H m'), or_intror, Hm). clear IH.
    match goal with |- context [@sel _ ?f ?a ?b] => assert (@sel _ f a b = if xlt (aicc n pq (o_fun m)) (os_best st) then b else a) as -> by reflexivity end.
    change (flt AX) with xlt. destruct (xlt (aicc n pq (o_fun m)) (os_best st)) eqn:X; cbn [os_best os_mle os_aicc os_p os_q]; rewrite <- app_assoc; destruct pq; reflexivity.
Qed.

Lemma nth_error_combine A B (l : list A) (l' : list B) : length l = length l' -> forall i a b,
  nth_error (combine l l') i = Some (a, b) <-> (nth_error l i = Some a /\ nth_error l' i = Some b).
Proof.
  revert l'. induction l as [|x l IH]; intros [|y l'] H i a b; try discriminate.
  - destruct i; cbn; split; [discriminate|intros [? _]; discriminate|discriminate|intros [? _]; discriminate].
  - destruct i as [|i]; cbn [combine nth_error].
    + split; [intros E; injection E as <- <-; auto|intros [E1 E2]; congruence].
    + apply IH. injection H; auto.
Qed.

(** what choose_order returns when get_mle succeeds on every order *)
Theorem choose_order_spec cpus njobs trials (m : cmodel AX) pmax qmax pql ms l :
  l = match pql with Some l => l | None => pq_grid pmax qmax end -> l <> [] -> length ms = length l ->
  (forall i pq e, nth_error l i = Some pq -> nth_error ms i = Some e -> get_mle cpus njobs (trials pq) = Ok e) ->
  (forall pq, In pq l -> length (c_time m) <> 2 + fst pq + snd pq + 1)%nat ->
  exists best a p' q', choose_order cpus njobs trials m pmax qmax pql = Ok (best, l, a, mkCM AX (c_time m) (c_y m) (c_ysig m) p' q') /\
    a = map (fun x : opt AX * (nat * nat) => aicc (length (c_time m)) (snd x) (o_fun (fst x))) (combine ms l) /\
    ((exists i, nth_error ms i = Some best /\ nth_error l i = Some (p', q') /\
        (exists ai, nth_error a i = Some ai /\ xlt ai (Fin (10 ^ 300)) = true /\ (forall x, In x a -> xlt x ai = false) /\
         forall j x, (j < i)%nat -> nth_error a j = Some x -> x = NaN \/ xlt ai x = true)) \/
     ((forall x, In x a -> xlt x (Fin (10 ^ 300)) = false) /\ nth_error ms 0 = Some best /\ p' = c_p m /\ q' = c_q m)).
Proof.
  intros El Hl Hms Hm Hn. unfold choose_order. rewrite <- El. rewrite (mles_inv Hms Hm). cbn [bind].
  destruct ms as [|m0 ms]. { destruct l; [contradiction|discriminate]. }
  set (n := length (c_time m)) in *.
  rewrite order_loop_spec. 2:{ intros e pq Hin. apply Hn. exact (in_combine_r _ _ _ _ Hin). } cbn [bind os_best os_mle os_aicc os_p os_q].
  set (cs := map _ (combine (m0 :: ms) l)). set (init := (big AX, (m0, (c_p m, c_q m))) : cand).
  assert (fst init = Fin (10 ^ 300)) as Eb.
  { cbn [fst init]. unfold big. change (fdec AX (10 ^ 300) 1) with (Fin (IZR (10 ^ 300) / 1)). f_equal. unfold Rdiv. rewrite Rinv_1, Rmult_1_r. rewrite (pow_IZR 10 300). reflexivity. }
  assert (fst init <> NaN) as Nb by (rewrite Eb; discriminate).
  set (r := fold_left (sel (@fst xr (opt AX * (nat * nat)))) cs init).
  assert (map fst cs = map (fun x : opt AX * (nat * nat) => aicc n (snd x) (o_fun (fst x))) (combine (m0 :: ms) l)) as Ea by (unfold cs; rewrite map_map; reflexivity).
  exists (fst (snd r)), (map fst cs), (fst (snd (snd r))), (snd (snd (snd r))). split; [reflexivity|]. split; [exact Ea|].
  pose proof (sel_spec cs Nb) as SP. cbn zeta in SP. fold r in SP. clearbody r. destruct SP as [(E & Fa)|(L & i & N & M & B)].
  - right. rewrite E. rewrite <- Eb. split; [|auto]. intros x Hx. apply in_map_iff in Hx. destruct Hx as (c & <- & Hc). exact (Fa c Hc).
  - left. exists i. assert (nth_error (combine (m0 :: ms) l) i = Some (snd r)) as Nc.
    { unfold cs in N. rewrite nth_error_map in N. destruct (nth_error (combine (m0 :: ms) l) i) as [c|]; [|discriminate]. injection N as <-. reflexivity. }
    destruct (snd r) as (e, (p', q')) eqn:Er. apply nth_error_combine in Nc; [|exact Hms]. destruct Nc as (N1 & N2).
    split; [exact N1|]. split; [exact N2|]. exists (fst r). split; [rewrite nth_error_map, N; reflexivity|].
    split; [rewrite <- Eb; exact L|]. split.
    + intros x Hx. apply in_map_iff in Hx. destruct Hx as (c & <- & Hc). exact (M c Hc).
    + intros j x Hj Hx. rewrite nth_error_map in Hx. destruct (nth_error cs j) as [c|] eqn:Ec; [|discriminate]. injection Hx as <-. exact (B j c Hj Ec).
Qed.

(** the default list is every pair with p <= pmax, q < p, whatever qmax is *)
Lemma pq_grid_spec pmax qmax p q : In (p, q) (pq_grid pmax qmax) <-> (1 <= p <= pmax /\ q < p)%nat.
Proof.
  unfold pq_grid. rewrite in_flat_map. split.
  - intros (x & Hx & H). apply in_seq in Hx. apply in_map_iff in H. destruct H as (z & E & Hz). injection E as -> ->. apply in_seq in Hz. lia.
  - intros H. exists p. split; [apply in_seq; lia|]. apply in_map_iff. exists q. split; [reflexivity|]. apply in_seq. lia.
Qed.
