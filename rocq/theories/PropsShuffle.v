(** C114: the order in which the measurements are given does not matter. *)
From Coq Require Import Reals List Arith ZArith Lra Lia Bool Permutation.
From Verif Require Import Arith Res ListLemmas KFModel Spec Emb InitProof SimProof KF1Main KF1More EngineAX PyModel PyData.
Import ListNotations.
Local Open Scope R_scope.
Local Notation length := List.length.

(** a light curve as a list of measurements (time, value, error bar); the values and error bars may be any numbers *)
Definition times (l : list (R * xr * xr)) : list R := map (fun m => fst (fst m)) l.
Definition values (l : list (R * xr * xr)) : list xr := map (fun m => snd (fst m)) l.
Definition errors (l : list (R * xr * xr)) : list xr := map snd l.

Lemma increasing_unique (t : list R) : forall t', strictly_increasing t -> strictly_increasing t' -> (forall x, In x t <-> In x t') -> t = t'.
Proof.
  assert (forall (a : R) r, strictly_increasing (a :: r) -> strictly_increasing r) as Tl.
  { intros a r H i j Hi Hj. exact (H (S i) (S j) ltac:(lia) ltac:(cbn; lia)). }
  assert (forall (a : R) r x, strictly_increasing (a :: r) -> In x r -> a < x) as Hd.
  { intros a r x H Hx. apply (In_nth _ _ 0) in Hx. destruct Hx as (i & Hi & <-). exact (H 0%nat (S i) ltac:(lia) ltac:(cbn; lia)). }
  induction t as [|a r IH]; intros [|b r'] H H' Hin; [reflexivity|exfalso; exact (proj2 (Hin b) (or_introl eq_refl))|exfalso; exact (proj1 (Hin a) (or_introl eq_refl))|].
  assert (a = b) as ->.
  { destruct (proj1 (Hin a) (or_introl eq_refl)) as [E|Ha]; [congruence|]. destruct (proj2 (Hin b) (or_introl eq_refl)) as [E|Hb]; [congruence|].
    pose proof (Hd _ _ _ H Hb). pose proof (Hd _ _ _ H' Ha). lra. }
  f_equal. apply IH; [exact (Tl _ _ H)|exact (Tl _ _ H')|]. intros x. split; intros Hx.
  - destruct (proj1 (Hin x) (or_intror Hx)) as [E|E]; [|exact E]. pose proof (Hd _ _ _ H Hx). lra.
  - destruct (proj2 (Hin x) (or_intror Hx)) as [E|E]; [|exact E]. pose proof (Hd _ _ _ H' Hx). lra.
Qed.

(** C114: CarmaModel built from the same measurements in any order, with whatever sorting routines, is the same object, if no two times are equal;
    so everything computed from it is the same too. *)
Theorem C114_carmamodel_order : forall (argsort usort argsort' usort' : list xr -> list nat) (l l' : list (R * xr * xr)) (p q : nat),
  valid_argsort argsort -> valid_argsort usort -> valid_argsort argsort' -> valid_argsort usort' ->
  Permutation l l' -> NoDup (times l) ->
  exists m, CarmaModel_new AX argsort usort (map Fin (times l)) (values l) (errors l) p q = Ok m /\
    CarmaModel_new AX argsort' usort' (map Fin (times l')) (values l') (errors l') p q = Ok m.
Proof.
  intros argsort usort argsort' usort' l l' p q H1 H2 H1' H2' Hp Hnd.
  assert (forall l : list (R * xr * xr), length (values l) = length (times l) /\ length (errors l) = length (times l)) as HL by (intros l0; unfold values, times, errors; rewrite !map_length; split; reflexivity).
  destruct (@CarmaModel_data argsort usort (times l) (values l) (errors l) p q H1 H2 (proj1 (HL l)) (proj2 (HL l))) as (t1 & y1 & e1 & E & Ly & Le & Ht & Hin & Hrec & _).
  destruct (@CarmaModel_data argsort' usort' (times l') (values l') (errors l') p q H1' H2' (proj1 (HL l')) (proj2 (HL l'))) as (t2 & y2 & e2 & E' & Ly' & Le' & Ht' & Hin' & Hrec' & _).
  assert (t2 = t1) as ->.
  { apply increasing_unique; [exact Ht'|exact Ht|]. intros x. rewrite Hin, Hin'. unfold times. split; apply Permutation_in; [apply Permutation_sym|]; apply Permutation_map, Hp. }
  set (d := (0, NaN, NaN) : R * xr * xr).
  assert (forall (l : list (R * xr * xr)) k, nth k (times l) 0 = fst (fst (nth k l d)) /\ nth k (values l) NaN = snd (fst (nth k l d)) /\ nth k (errors l) NaN = snd (nth k l d)) as Hn.
  { intros l0 k. unfold times, values, errors. split; [|split]; match goal with |- nth k (map ?f l0) _ = _ => exact (map_nth f l0 d k) end. }
  assert (forall l : list (R * xr * xr), NoDup (times l) -> forall a b, In a l -> In b l -> fst (fst a) = fst (fst b) -> a = b) as Huniq.
  { intros l0. induction l0 as [|m l0 IH]; cbn [times map]; intros Hd a b Ha Hb Heq; [destruct Ha|]. apply NoDup_cons_iff in Hd. destruct Hd as [Hm Hd].
    destruct Ha as [<-|Ha], Hb as [<-|Hb]; [reflexivity| | |exact (IH Hd _ _ Ha Hb Heq)].
    - exfalso. apply Hm. rewrite Heq. apply (in_map (fun m => fst (fst m))), Hb.
    - exfalso. apply Hm. rewrite <- Heq. apply (in_map (fun m => fst (fst m))), Ha. }
  assert (forall i, (i < length t1)%nat -> nth i y1 NaN = nth i y2 NaN /\ nth i e1 NaN = nth i e2 NaN) as Hsame.
  { intros i Hi. destruct (Hrec i Hi) as (k & Hk & K1 & K2 & K3). destruct (Hrec' i Hi) as (k' & Hk' & K1' & K2' & K3').
    unfold times in Hk, Hk'. rewrite map_length in Hk, Hk'. destruct (Hn l k) as (N1 & N2 & N3). destruct (Hn l' k') as (N1' & N2' & N3').
    assert (nth k l d = nth k' l' d) as Em.
    { apply (Huniq l Hnd); [apply nth_In, Hk|apply (Permutation_in _ (Permutation_sym Hp)), nth_In, Hk'|]. rewrite <- N1, <- N1'. congruence. }
    rewrite K2, K3, K2', K3', N2, N3, N2', N3', Em. split; reflexivity. }
  exists (mkCM AX (map Fin t1) y1 e1 p q). split; [exact E|]. rewrite E'. f_equal.
  assert (y2 = y1) as -> by (apply (nth_ext _ _ NaN NaN); [congruence|]; intros i Hi; symmetry; apply Hsame; lia).
  assert (e2 = e1) as -> by (apply (nth_ext _ _ NaN NaN); [congruence|]; intros i Hi; symmetry; apply Hsame; lia). reflexivity.
Qed.
Print Assumptions C114_carmamodel_order.

Lemma velem_In {T} (l : list T) : forall idx r, velem l idx = Ok r -> forall x, In x r -> exists i, In i idx /\ nth_error l i = Some x.
Proof.
  induction idx as [|i idx IH]; intros r E x Hx; cbn [velem] in E; [injection E as <-; destruct Hx|].
  apply bind_Ok in E. destruct E as (a & Ea & E). apply bind_Ok in E. destruct E as (xs & Exs & E). injection E as <-. destruct Hx as [<-|Hx].
  - exists i. split; [left; reflexivity|]. unfold vget in Ea. destruct (nth_error l i); [injection Ea as <-; reflexivity|discriminate].
  - destruct (IH xs Exs x Hx) as (k & Hk & Ek). exists k. split; [right; exact Hk|exact Ek].
Qed.
Lemma velem_same {T} (l l' : list T) : forall idx r, velem l idx = Ok r -> velem l' idx = Ok r -> forall i, In i idx -> nth_error l i = nth_error l' i.
Proof.
  induction idx as [|k idx IH]; intros r E E' i Hi; [destruct Hi|]. cbn [velem] in E, E'.
  apply bind_Ok in E. destruct E as (a & Ea & E). apply bind_Ok in E. destruct E as (xs & Exs & E). injection E as <-.
  apply bind_Ok in E'. destruct E' as (a' & Ea' & E'). apply bind_Ok in E'. destruct E' as (xs' & Exs' & E'). injection E' as -> ->.
  destruct Hi as [<-|Hi]; [|exact (IH xs Exs Exs' i Hi)]. unfold vget in *. destruct (nth_error l k), (nth_error l' k); congruence.
Qed.

(** With two measurements at one time the order matters: exchanging them changes which of the two is kept, whatever the sorting routine. *)
Theorem C114_repeated_refuted : forall (argsort usort : list xr -> list nat), valid_argsort argsort -> valid_argsort usort ->
  exists (l l' : list (R * xr * xr)) m m', Permutation l l' /\
    CarmaModel_new AX argsort usort (map Fin (times l)) (values l) (errors l) 1 0 = Ok m /\
    CarmaModel_new AX argsort usort (map Fin (times l')) (values l') (errors l') 1 0 = Ok m' /\ c_y m <> c_y m'.
Proof.
  intros argsort usort H1 H2. set (a := (1, Fin 10, Fin 1) : R * xr * xr). set (b := (1, Fin 20, Fin 1) : R * xr * xr). set (r := (2, Fin 0, Fin 1) : R * xr * xr).
  destruct (@CarmaModel_data argsort usort [1; 1; 2] [Fin 10; Fin 20; Fin 0] [Fin 1; Fin 1; Fin 1] 1%nat 0%nat H1 H2 eq_refl eq_refl) as (t1 & y1 & e1 & E & Ly & Le & Ht & Hin & Hrec & _).
  destruct (@CarmaModel_data argsort usort [1; 1; 2] [Fin 20; Fin 10; Fin 0] [Fin 1; Fin 1; Fin 1] 1%nat 0%nat H1 H2 eq_refl eq_refl) as (t2 & y2 & e2 & E' & _).
  exists [a; b; r], [b; a; r], (mkCM AX (map Fin t1) y1 e1 1 0), (mkCM AX (map Fin t2) y2 e2 1 0).
  split; [apply perm_swap|]. split; [exact E|]. split; [exact E'|]. cbn [c_y]. intros Heq. subst y2.
  unfold CarmaModel_new in E, E'. cbv zeta in *. apply bind_Ok in E. destruct E as (ts & Ets & E). rewrite Ets in E'. cbn [bind] in E'.
  apply bind_Ok in E. destruct E as ([tu u] & Eu & E). rewrite Eu in E'. cbn [bind] in E'. apply bind_Ok in E. destruct E as (idx & Ei & E). rewrite Ei in E'. cbn [bind] in E'.
  apply bind_Ok in E. destruct E as (tt1 & Et & E). rewrite Et in E'. cbn [bind] in E'. apply bind_Ok in E. destruct E as (yy & Ey & E). apply bind_Ok in E. destruct E as (ee & Ee & E).
  apply bind_Ok in E'. destruct E' as (yy' & Ey' & E'). apply bind_Ok in E'. destruct E' as (ee' & Ee' & E').
  assert (yy = y1) as -> by exact (f_equal (fun r => match r with Ok m => c_y m | _ => [] end) E). assert (yy' = y1) as -> by exact (f_equal (fun r => match r with Ok m => c_y m | _ => [] end) E').
  assert (tt1 = map Fin t1) as -> by exact (f_equal (fun r => match r with Ok m => c_time m | _ => [] end) E).
  assert (In (Fin 1) (map Fin t1)) as Hone by (apply in_map, Hin; left; reflexivity).
  destruct (velem_In _ _ _ Et _ Hone) as (i & Hi & Ex). pose proof (velem_same _ _ _ _ Ey Ey' i Hi) as Es.
  destruct i as [|[|[|i]]]; cbn in Ex, Es.
  - injection Es as Q. lra.
  - injection Es as Q. lra.
  - injection Ex as Q. lra.
  - destruct i; discriminate.
Qed.
Print Assumptions C114_repeated_refuted.

(** *** The hypotheses are met *)
Example ex_C114 : exists s, valid_argsort s /\ Permutation [(2, Fin 5, Fin 1); (0, Fin 3, Fin 1); (1, NaN, Fin 1)] [(0, Fin 3, Fin 1); (1, NaN, Fin 1); (2, Fin 5, Fin 1)] /\
  NoDup (times [(2, Fin 5, Fin 1); (0, Fin 3, Fin 1); (1, NaN, Fin 1)]).
Proof.
  destruct valid_sort_index_exists as (si & H). eexists. split; [exact (valid_argsort_of H)|]. split.
  - apply (Permutation_cons_append [(0, Fin 3, Fin 1); (1, NaN, Fin 1)] (2, Fin 5, Fin 1)).
  - cbn. repeat constructor; cbn; intuition lra.
Qed.
