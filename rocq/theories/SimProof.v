(** Simulate draws from the joint conditional distribution. *)
From Coq Require Import Reals List Arith ZArith Lra Lia Bool Permutation FinFun.
From Verif Require Import Arith Res ListLemmas KFModel Spec Gauss Emb KF1R History InitProof.
Import ListNotations.
Local Open Scope R_scope.

(** ** Sums and conditional distributions do not depend on the order of the records *)
Lemma Rsum_list f n : Rsum f n = fold_right Rplus 0 (map f (seq 0 n)).
Proof.
  induction n as [|n IH]; [reflexivity|]. rewrite seq_S, map_app, fold_right_app, Rsum_S, IH. simpl.
  generalize (f n); intros a. generalize (map f (seq 0 n)); intros l. induction l as [|x l IHl]; simpl; [lra|].
  rewrite <- IHl. lra.
Qed.

Lemma fold_plus_perm l l' : Permutation l l' -> fold_right Rplus 0 l = fold_right Rplus 0 l'.
Proof. induction 1; simpl; lra. Qed.

Lemma NoDup_map_in T U (f : T -> U) l : (forall x y, In x l -> In y l -> f x = f y -> x = y) -> NoDup l -> NoDup (map f l).
Proof.
  intros Hi Hn. induction Hn as [|x l Hx Hn IH]; [constructor|]. cbn [map]. constructor.
  - intros H. apply in_map_iff in H. destruct H as (y & E & Hy). apply Hi in E; [subst; contradiction|right; exact Hy|left; reflexivity].
  - apply IH. intros a b Ha Hb. apply Hi; right; assumption.
Qed.

Lemma Rsum_bij f n g : bFun n f -> bInjective n f -> Rsum (fun k => g (f k)) n = Rsum g n.
Proof.
  intros Hf Hi. rewrite !Rsum_list. rewrite <- (map_map f g). apply fold_plus_perm. apply Permutation_map.
  apply NoDup_Permutation_bis.
  - apply NoDup_map_in; [|apply seq_NoDup].
    intros x y Hx Hy. apply in_seq in Hx, Hy. apply Hi; lia.
  - rewrite map_length. reflexivity.
  - intros x Hx. apply in_map_iff in Hx. destruct Hx as (k & <- & Hk). apply in_seq in Hk. apply in_seq.
    assert (f k < n)%nat by (apply Hf; lia). lia.
Qed.

Definition zip3 (t y e : list R) : list (R * (R * R)) := combine t (combine y e).

Lemma zip3_len t y e : length y = length t -> length e = length t -> length (zip3 t y e) = length t.
Proof. intros. unfold zip3. rewrite !combine_length. lia. Qed.

Lemma zip3_nth t y e i : length y = length t -> length e = length t ->
  nth i (zip3 t y e) (0, (0, 0)) = (nth i t 0, (nth i y 0, nth i e 0)).
Proof.
  intros Hy He. unfold zip3. rewrite combine_nth by (rewrite combine_length; lia). rewrite combine_nth by lia. reflexivity.
Qed.

Lemma cond_perm C t y e t' y' e' tp m v :
  length y = length t -> length e = length t -> length y' = length t' -> length e' = length t' ->
  Permutation (zip3 t y e) (zip3 t' y' e') ->
  cond_dist C t y e tp m v -> cond_dist C t' y' e' tp m v.
Proof.
  intros L1 L2 L3 L4 Hp (wt & H1 & H2 & H3).
  apply (Permutation_nth _ _ (0, (0, 0))) in Hp. cbv zeta in Hp. destruct Hp as (Hl & f & Hf & Hi & Hn).
  rewrite !zip3_len in * by assumption.
  assert (forall x, (x < length t)%nat -> nth x t' 0 = nth (f x) t 0 /\ nth x y' 0 = nth (f x) y 0 /\ nth x e' 0 = nth (f x) e 0) as Hx.
  { intros x Hx. specialize (Hn x Hx). rewrite !zip3_nth in Hn by assumption. injection Hn as E1 E2 E3. auto. }
  unfold cond_dist. rewrite Hl. exists (fun k => wt (f k)). split; [|split].
  - intros j Hj. destruct (Hx j Hj) as (Ej & _). rewrite Ej. rewrite <- (H1 (f j)) by (apply Hf; exact Hj).
    rewrite <- (Rsum_bij f (length t) (fun k => wt k * obs_cov C (fun i => nth i t 0) (fun i => nth i e 0) k (f j)) Hf Hi).
    apply Rsum_ext. intros k Hk. destruct (Hx k Hk) as (Ek & _ & Ee). f_equal. unfold obs_cov.
    rewrite Ek, Ej, Ee. f_equal. destruct (Nat.eqb_spec k j) as [->|Hne].
    + rewrite Nat.eqb_refl. reflexivity.
    + destruct (Nat.eqb_spec (f k) (f j)) as [Efk|]; [|reflexivity]. exfalso. apply Hne. apply Hi; assumption.
  - rewrite H2. rewrite <- (Rsum_bij f (length t) (fun k => wt k * nth k y 0) Hf Hi). apply Rsum_ext.
    intros k Hk. destruct (Hx k Hk) as (_ & -> & _). reflexivity.
  - rewrite H3. rewrite <- (Rsum_bij f (length t) (fun k => wt k * C tp (nth k t 0)) Hf Hi). f_equal. apply Rsum_ext.
    intros k Hk. destruct (Hx k Hk) as (-> & _). reflexivity.
Qed.

(** ** Insertion *)
Lemma ins_nth T i (v : T) l j d : (i <= length l)%nat ->
  nth j (ins i v l) d = if Nat.ltb j i then nth j l d else if Nat.eqb j i then v else nth (j - 1) l d.
Proof.
  intros Hi. unfold ins. assert (length (firstn i l) = i) as Hf by (rewrite firstn_length; lia).
  destruct (Nat.ltb_spec j i) as [H|H].
  - rewrite app_nth1 by lia. rewrite <- (firstn_skipn i l) at 2. rewrite app_nth1 by lia. reflexivity.
  - rewrite app_nth2 by lia. rewrite Hf. destruct (Nat.eqb_spec j i) as [->|Hne]; [rewrite Nat.sub_diag; reflexivity|].
    destruct (j - i)%nat as [|k] eqn:E; [lia|]. simpl. rewrite <- (firstn_skipn i l) at 2. rewrite app_nth2 by lia.
    rewrite Hf. f_equal. lia.
Qed.

Lemma ins_length T i (v : T) l : (i <= length l)%nat -> length (ins i v l) = S (length l).
Proof. intros H. unfold ins. rewrite app_length. simpl. rewrite firstn_length, skipn_length. lia. Qed.

Lemma ins_map T U (f : T -> U) i v l : ins i (f v) (map f l) = map f (ins i v l).
Proof. unfold ins. rewrite map_app, firstn_map, skipn_map. reflexivity. Qed.

Lemma combine_app T U (a a' : list T) (b b' : list U) : length a = length b ->
  combine (a ++ a') (b ++ b') = combine a b ++ combine a' b'.
Proof.
  revert b; induction a as [|x a IH]; intros [|z b] H; try discriminate; [reflexivity|].
  simpl in *. rewrite IH by lia. reflexivity.
Qed.

Lemma ins_combine T U i (x : T) (z : U) a b : length a = length b -> (i <= length a)%nat ->
  ins i (x, z) (combine a b) = combine (ins i x a) (ins i z b).
Proof.
  intros H Hi. unfold ins. rewrite combine_app by (rewrite !firstn_length; lia). simpl. f_equal; [|f_equal].
  - revert b H i Hi; induction a as [|x0 a IH]; intros [|z0 b] H i Hi; try discriminate; [destruct i; reflexivity|].
    destruct i as [|i]; [reflexivity|]. simpl in *. rewrite IH by lia. reflexivity.
  - revert b H i Hi; induction a as [|x0 a IH]; intros [|z0 b] H i Hi; try discriminate; [destruct i; reflexivity|].
    destruct i as [|i]; [reflexivity|]. simpl in *. rewrite IH by lia. reflexivity.
Qed.

Lemma ins_perm T i (v : T) l : Permutation (ins i v l) (l ++ [v]).
Proof.
  unfold ins. rewrite <- (firstn_skipn i l) at 3. rewrite <- app_assoc. apply Permutation_app_head.
  apply Permutation_cons_append.
Qed.

Lemma zip3_ins i t y e a b c : length y = length t -> length e = length t -> (i <= length t)%nat ->
  zip3 (ins i a t) (ins i b y) (ins i c e) = ins i (a, (b, c)) (zip3 t y e).
Proof.
  intros Hy He Hi. unfold zip3. rewrite <- ins_combine by lia. rewrite <- ins_combine by (rewrite ?combine_length; lia).
  reflexivity.
Qed.

Lemma zip3_app t y e a b c : length y = length t -> length e = length t ->
  zip3 (t ++ [a]) (y ++ [b]) (e ++ [c]) = zip3 t y e ++ [(a, (b, c))].
Proof. intros Hy He. unfold zip3. rewrite (combine_app _ _ y) by lia. rewrite combine_app by (rewrite combine_length; lia). reflexivity. Qed.

Lemma ins_times_ok tr er tp : times_ok tr er -> length er = length tr ->
  (forall i, (i < length tr)%nat -> nth i tr 0 = tp -> nth i er 0 <> 0) ->
  times_ok (ins (lt_prefix AR tr tp) tp tr) (ins (lt_prefix AR tr tp) 0 er).
Proof.
  intros [Hm Hs] Hl Hnz. pose proof (lt_prefix_len AR tr tp) as Hle.
  change (@length (F AR) tr) with (length tr) in Hle.
  assert (forall i, (i < length tr)%nat -> (i < lt_prefix AR tr tp)%nat <-> nth i tr 0 < tp) as Hsp
    by (intros; apply lt_prefix_spec; assumption).
  set (ip := lt_prefix AR tr tp) in *. clearbody ip.
  split.
  - intros i j Hij Hj. rewrite ins_length in Hj by exact Hle. rewrite !ins_nth by exact Hle.
    destruct (Nat.ltb_spec i ip), (Nat.ltb_spec j ip); try lia.
    + apply Hm; lia.
    + assert (nth i tr 0 < tp) by (apply Hsp; lia). destruct (Nat.eqb_spec j ip); [lra|].
      destruct (Nat.eq_dec i (j - 1)) as [->|]; [lra|]. apply Hm; lia.
    + destruct (Nat.eqb_spec j ip); [lia|]. destruct (Nat.eqb_spec i ip) as [->|].
      * destruct (Rlt_dec (nth (j - 1) tr 0) tp) as [Hlt|]; [|lra]. apply Hsp in Hlt; lia.
      * apply Hm; lia.
  - intros i Hi E. rewrite ins_length in Hi by exact Hle. rewrite !ins_nth in E by exact Hle.
    rewrite ins_nth by lia.
    destruct (Nat.ltb_spec i ip), (Nat.ltb_spec (S i) ip); try lia.
    + apply Hs; [lia|exact E].
    + destruct (Nat.eqb_spec (S i) ip); [|lia]. assert (nth i tr 0 < tp) by (apply Hsp; lia). lra.
    + destruct (Nat.eqb_spec (S i) ip); [lia|]. replace (S i - 1)%nat with i in * by lia.
      destruct (Nat.eqb_spec i ip) as [->|].
      * apply Hnz; [lia|symmetry; exact E].
      * replace i with (S (i - 1)) by lia. apply Hs; [lia|]. replace (S (i - 1)) with i by lia. exact E.
Qed.

(** What is assumed of arma::sort on finite values. *)
Definition valid_vsort (vs : list xr -> option (list xr)) : Prop :=
  forall l : list R, exists l', vs (map Fin l) = Some (map Fin l') /\ Permutation l l' /\ nondecreasing l'.

(** state of the generator after k draws *)
Fixpoint gen_after {G} (draw : G -> xr * G) (k : nat) (g : G) : G :=
  match k with O => g | S k' => gen_after draw k' (snd (draw g)) end.

Section Sim.
Variable Par : Type.
Variable C : R -> R -> R.
Variable G : Type.
Variable draw : G -> F AX * G.
Hypothesis Hdraw : forall g, exists z, fst (draw g) = Fin z.
Variable pp : setup AX Par -> F AX -> res (F AX * F AX).
Variables (sig : R) (p : Par) (nmin : nat).
Hypothesis Hpp : forall tr yr er tp, length yr = length tr -> length er = length tr -> (nmin <= length tr)%nat ->
  times_ok tr er -> (forall i, (i < length tr)%nat -> nth i tr 0 = tp -> nth i er 0 <> 0) ->
  exists m v, pp (mkSetup AX (map Fin tr) (diffs AX (map Fin tr)) (map Fin yr) (map Fin er) (Fin sig) p) (Fin tp) = Ok (Fin m, Fin v) /\
    0 < v /\ cond_dist C tr yr er tp m v.

Variables (t y e : list R).
Hypothesis Hy : length y = length t.
Hypothesis He : length e = length t.

(** each value is the mean plus the standard deviation times the draw *)
Definition sim_spec (sorted out : list R) (g : G) : Prop :=
  length out = length sorted /\
  forall k, (k < length sorted)%nat -> exists m v z,
    fst (draw (gen_after draw k g)) = Fin z /\ 0 < v /\
    cond_dist C (t ++ firstn k sorted) (y ++ firstn k out) (e ++ repeat 0 k) (nth k sorted 0) m v /\
    nth k out 0 = m + sqrt v * z.

Lemma psim_loop_spec todo : forall done outd tr yr er g0 g,
  length outd = length done -> length yr = length tr -> length er = length tr -> (nmin <= length tr)%nat ->
  times_ok tr er ->
  Permutation (zip3 tr yr er) (zip3 (t ++ done) (y ++ outd) (e ++ repeat 0 (length done))) ->
  strictly_increasing (done ++ todo) ->
  (forall i, (i < length t)%nat -> In (nth i t 0) todo -> nth i e 0 <> 0) ->
  sim_spec done outd g0 -> g = gen_after draw (length done) g0 ->
  exists out u, psim_loop draw pp (map Fin todo)
      (map Fin outd, mkSetup AX (map Fin tr) (diffs AX (map Fin tr)) (map Fin yr) (map Fin er) (Fin sig) p, g)
      = Ok (map Fin out, u, gen_after draw (length (done ++ todo)) g0) /\ sim_spec (done ++ todo) out g0.
Proof.
  induction todo as [|tp todo IH]; intros done outd tr yr er g0 g Lo Ly Le Ln Hok Hperm Hinc Hnz Hspec Hg.
  - exists outd. eexists. cbn [map psim_loop]. rewrite app_nil_r in *. rewrite Hg. split; [reflexivity|exact Hspec].
  - assert (forall i, (i < length tr)%nat -> nth i tr 0 = tp -> nth i er 0 <> 0) as Htp.
    { intros i Hi Ei.
      assert (In (nth i (zip3 tr yr er) (0, (0, 0))) (zip3 (t ++ done) (y ++ outd) (e ++ repeat 0 (length done)))) as Hin.
      { eapply Permutation_in; [exact Hperm|]. apply nth_In. rewrite zip3_len by lia. exact Hi. }
      rewrite zip3_nth in Hin by lia.
      apply (In_nth _ _ (0, (0, 0))) in Hin. destruct Hin as (k & Hk & Ek).
      rewrite zip3_len in Hk by (rewrite !app_length, ?repeat_length; lia).
      rewrite zip3_nth in Ek by (rewrite !app_length, ?repeat_length; lia).
      injection Ek as E1 E2 E3. rewrite <- E3. rewrite app_length in Hk.
      destruct (Nat.lt_ge_cases k (length t)) as [Hlt|Hge].
      - rewrite app_nth1 in E1 by lia. rewrite app_nth1 by lia. apply Hnz; [exact Hlt|].
        rewrite E1, Ei. left. reflexivity.
      - exfalso. rewrite app_nth2 in E1 by lia.
        assert (nth (k - length t) done 0 < tp) as Hlt'.
        { specialize (Hinc (k - length t)%nat (length done)). rewrite app_nth1 in Hinc by lia.
          rewrite app_nth2, Nat.sub_diag in Hinc by lia. simpl in Hinc. apply Hinc; rewrite ?app_length; simpl; lia. }
        lra. }
    destruct (Hpp tr yr er tp Ly Le Ln Hok Htp) as (m & v & Epp & Hv & Hcd).
    destruct (Hdraw g) as [z Hz]. destruct (draw g) as [dz g'] eqn:Ed. cbn [fst] in Hz. subst dz.
    cbn [map psim_loop psim_step]. rewrite Epp. cbn [bind].
    unfold rnormal. rewrite Ed. cbn [fadd fmul fsqrt AX].
    rewrite fin_sqrt by lra. cbn [xmul xadd s_time s_y s_yerr s_sig s_par].
    rewrite lt_prefix_Fin. set (ip := lt_prefix AR tr tp).
    assert (ip <= length tr)%nat as Hip by apply lt_prefix_len.
    change (fofZ AX 0) with (Fin 0). rewrite !ins_map.
    change ([Fin (z * sqrt v + m)]) with (map Fin [z * sqrt v + m]). rewrite <- map_app.
    destruct (IH (done ++ [tp]) (outd ++ [z * sqrt v + m]) (ins ip tp tr) (ins ip (z * sqrt v + m) yr) (ins ip 0 er) g0 g')
      as (out & u & Eout & Hout).
    + rewrite !app_length; simpl; lia.
    + rewrite !ins_length by lia. lia.
    + rewrite !ins_length by lia. lia.
    + rewrite ins_length by lia. lia.
    + apply ins_times_ok; assumption.
    + rewrite zip3_ins by lia. etransitivity; [apply ins_perm|].
      rewrite !app_assoc. rewrite app_length. simpl.
      replace (length done + 1)%nat with (S (length done)) by lia.
      replace (repeat 0 (S (length done))) with (repeat 0 (length done) ++ [0]).
      2:{ change [0] with (repeat 0 1). rewrite <- repeat_app. f_equal. lia. }
      rewrite app_assoc. rewrite zip3_app by (rewrite !app_length, ?repeat_length; lia).
      apply Permutation_app_tail. exact Hperm.
    + rewrite <- app_assoc. exact Hinc.
    + intros i Hi Hin. apply Hnz; [exact Hi|right; exact Hin].
    + destruct Hspec as [HL HS]. split; [rewrite !app_length; simpl; lia|].
      intros k Hk. rewrite app_length in Hk. simpl in Hk.
      destruct (Nat.lt_ge_cases k (length done)) as [Hlt|Hge].
      * destruct (HS k Hlt) as (m1 & v1 & z1 & Q1 & Q2 & Q3 & Q4). exists m1, v1, z1.
        rewrite !firstn_app. replace (k - length done)%nat with O by lia. replace (k - length outd)%nat with O by lia.
        cbn [firstn]. rewrite !app_nil_r. rewrite !app_nth1 by lia. auto.
      * assert (k = length done) as -> by lia. exists m, v, z.
        rewrite <- Hg, Ed. split; [reflexivity|]. split; [exact Hv|].
        assert (firstn (length done) outd = outd) as Efo by (rewrite <- Lo; apply firstn_all).
        rewrite !firstn_app, Efo, firstn_all, Lo, Nat.sub_diag.
        cbn [firstn]. rewrite !app_nil_r.
        rewrite app_nth2, Nat.sub_diag by lia. rewrite app_nth2 by lia. replace (length done - length outd)%nat with O by lia. cbn [nth].
        split; [|ring]. eapply cond_perm; [| | | |exact Hperm|exact Hcd]; rewrite ?app_length, ?repeat_length; lia.
    + rewrite app_length. simpl. rewrite Nat.add_1_r. cbn [gen_after].
      assert (forall n g1, gen_after draw n (snd (draw g1)) = snd (draw (gen_after draw n g1))) as Hga.
      { induction n as [|n IHn]; intros g1; [reflexivity|]. cbn [gen_after]. rewrite IHn. reflexivity. }
      rewrite Hga, <- Hg, Ed. reflexivity.
    + exists out, u. rewrite <- app_assoc in Eout, Hout. cbn [app] in Eout, Hout. split; [|exact Hout].
      rewrite <- Eout. reflexivity.
Qed.
End Sim.
