(** KalmanFilter1: what Filter and Predict compute, for every arithmetic. *)
From Coq Require Import List Arith ZArith Lia Bool.
From Verif Require Import Arith Res ListLemmas KFModel.
Import ListNotations.

Set Implicit Arguments.

Section KF1.
Variable A : Arith.
Local Notation F := (F A).
Local Notation "x ⊕ y" := (fadd A x y) (at level 50, left associativity).
Local Notation "x ⊖ y" := (fsub A x y) (at level 50, left associativity).
Local Notation "x ⊗ y" := (fmul A x y) (at level 40, left associativity).
Local Notation "x ⊘ y" := (fdiv A x y) (at level 40, left associativity).
Local Notation "# z" := (fofZ A z) (at level 5).

(** all arrays have the sizes init() gives them *)
Definition wf {X} (s : kf A X) : Prop :=
  1 <= length (k_time s) /\
  length (k_dt s) = length (k_time s) - 1 /\ length (k_y s) = length (k_time s) /\
  length (k_yerr s) = length (k_time s) /\ length (k_mean s) = length (k_time s) /\
  length (k_var s) = length (k_time s).

Section Pure.
Variables (time dt y yerr : list F) (sig w : F).
Let at_ (l : list F) i := nth i l (#0).
Let S0 := sig ⊘ (#2 ⊗ w).

Definition nextm (rho vb eb mb yb : F) : F :=
  let pv := vb ⊖ eb ⊗ eb in let ratio := pv ⊘ vb in
  rho ⊗ mb ⊕ rho ⊗ ratio ⊗ (yb ⊖ mb).
Definition nextv (rho vb eb : F) : F :=
  let pv := vb ⊖ eb ⊗ eb in let ratio := pv ⊘ vb in
  S0 ⊗ (#1 ⊖ rho ⊗ rho) ⊕ rho ⊗ rho ⊗ pv ⊗ (#1 ⊖ ratio).

Fixpoint vpure (i : nat) : F :=
  match i with
  | O => S0 ⊕ at_ yerr 0 ⊗ at_ yerr 0
  | S b => nextv (fexp A (fneg A (#1) ⊗ w ⊗ at_ dt b)) (vpure b) (at_ yerr b) ⊕ at_ yerr i ⊗ at_ yerr i
  end.
Fixpoint mpure (i : nat) : F :=
  match i with
  | O => #0
  | S b => nextm (fexp A (fneg A (#1) ⊗ w ⊗ at_ dt b)) (vpure b) (at_ yerr b) (mpure b) (at_ y b)
  end.

(** the interpolation coefficients at index ip + k: (yconst, yslope, var) *)
Fixpoint cpure (t : F) (ip k : nat) : F * F * F :=
  match k with
  | O => let sl := fexp A (fneg A (fabs A (at_ time ip ⊖ t)) ⊗ w) in
         (#0, sl, S0 ⊗ (#1 ⊖ sl ⊗ sl) ⊕ at_ yerr ip ⊗ at_ yerr ip)
  | S k' =>
      let '(co, sl, vb) := cpure t ip k' in
      let b := ip + k' in
      let rho := fexp A (fneg A (#1) ⊗ at_ dt b ⊗ w) in
      let pv := vb ⊖ at_ yerr b ⊗ at_ yerr b in let ratio := pv ⊘ vb in
      (co ⊗ rho ⊗ (#1 ⊖ ratio) ⊕ rho ⊗ ratio ⊗ at_ y b, sl ⊗ (rho ⊗ (#1 ⊖ ratio)),
       nextv rho vb (at_ yerr b) ⊕ at_ yerr (S b) ⊗ at_ yerr (S b))
  end.
Definition cconst t ip k := fst (fst (cpure t ip k)).
Definition cslope t ip k := snd (fst (cpure t ip k)).
Definition cvar t ip k := snd (cpure t ip k).

(** the accumulated (mean * precision, precision) after absorbing observation ip + k *)
Definition apure1 t ip k (a : F * F) : F * F :=
  let '(m, p) := a in
  (m ⊕ cslope t ip k ⊗ (at_ y (ip + k) ⊖ cconst t ip k) ⊘ cvar t ip k,
   p ⊕ cslope t ip k ⊗ cslope t ip k ⊘ cvar t ip k).
Fixpoint apure (t : F) (ip k : nat) (a0 : F * F) : F * F :=
  match k with O => a0 | S k' => apure1 t ip k' (apure t ip k' a0) end.

Definition forecast (t : F) (ip : nat) : F * F :=
  match ip with
  | O => (#0, S0)
  | S b =>
    let rho := fexp A (fneg A (t ⊖ at_ time b) ⊗ w) in
    (nextm rho (vpure b) (at_ yerr b) (mpure b) (at_ y b), nextv rho (vpure b) (at_ yerr b))
  end.

(** what Predict(t) returns *)
Definition predpure (t : F) : F * F :=
  let ip := lt_prefix A time t in
  let '(m0, v0) := forecast t ip in
  if ip =? length time then (m0, v0)
  else let prec := #1 ⊘ v0 in
       let '(mm, pp) := apure t ip (length time - ip) (m0 ⊗ prec, prec) in
       (mm ⊗ (#1 ⊘ pp), #1 ⊘ pp).
End Pure.

Local Notation at_ l i := (nth i l (#0)).

Section Run.
Variable s : kf1 A.
Let time := k_time s. Let dt := k_dt s. Let y := k_y s. Let yerr := k_yerr s.
Let sig := k_sig s. Let w := k_ext s.
Let n := length time.
Hypothesis Hwf : wf s.
Let vp := vpure dt yerr sig w.
Let mp := mpure dt y yerr sig w.

(** the object after Reset and i-1 Updates *)
Definition fstate (i : nat) : kf1 A :=
  mkKF A time dt y yerr (filled mp i (k_mean s)) (filled vp i (k_var s)) sig i (#0) (#0) w.

Ltac wfd := destruct Hwf as (Hn & Hdt & Hy & Hyerr & Hmean & Hvar).

Lemma Reset1_ok : Reset1 s = Ok (fstate 1).
Proof using Hwf.
  clear -Hwf. wfd. unfold Reset1.
  rewrite vset_ok by lia. cbn [bind].
  rewrite (vget_ok _ (#0)) by lia. cbn [bind].
  rewrite vset_ok by lia. cbn [bind].
  unfold fstate. f_equal. unfold set_cur, set_coefs, set_var, set_mean; cbn [k_time k_dt k_y k_yerr k_mean k_var k_sig k_cur k_yconst k_yslope k_ext].
  f_equal.
  - rewrite <- (upd_filled mp (k:=0)) by lia. reflexivity.
  - rewrite <- (upd_filled vp (k:=0)) by lia. reflexivity.
Qed.

Lemma Update1_ok i : 1 <= i -> i < n -> Update1 (fstate i) = Ok (fstate (S i)).
Proof using Hwf.
  clear -Hwf. wfd. unfold n, time in *. intros H1 H2. destruct i as [|b]; [lia|].
  unfold Update1. cbn [k_cur fstate idxm1 bind k_dt k_var k_yerr k_mean k_y k_ext].
  rewrite (vget_ok _ (#0)) by (unfold dt; lia). cbn [bind].
  rewrite (vget_ok _ (#0)) by (rewrite filled_length; lia). cbn [bind].
  rewrite (vget_ok _ (#0)) by (unfold yerr; lia). cbn [bind].
  rewrite (vget_ok _ (#0)) by (rewrite filled_length; lia). cbn [bind].
  rewrite (vget_ok _ (#0)) by (unfold y; lia). cbn [bind].
  rewrite vset_ok by (rewrite filled_length; lia). cbn [bind].
  rewrite (vget_ok _ (#0)) by (unfold yerr; lia). cbn [bind].
  rewrite vset_ok by (rewrite filled_length; lia). cbn [bind].
  unfold fstate at 1. f_equal.
  rewrite !(@nth_filled _ _ (S b)) by lia.
  unfold fstate, set_cur, set_var, set_mean; cbn [k_time k_dt k_y k_yerr k_mean k_var k_sig k_cur k_yconst k_yslope k_ext].
  f_equal.
  - rewrite <- (upd_filled mp (k:=S b)) by lia. reflexivity.
  - rewrite <- (upd_filled vp (k:=S b)) by lia. reflexivity.
Qed.

Lemma Updates1_ok k : k < n -> for_ 1 k (fun _ s => Update1 s) (fstate 1) = Ok (fstate (1 + k)).
Proof using Hwf.
  intros Hk. apply (@for_exact _ _ fstate). intros i H1 H2. apply Update1_ok; lia.
Qed.

Lemma Filter1_ok : Filter (methods1 A) s = Ok (fstate n).
Proof using Hwf.
  unfold Filter. cbn [m_Reset m_Update methods1]. rewrite Reset1_ok. cbn [bind].
  assert (1 <= n) as Hn by (destruct Hwf as (H & _); exact H).
  change (length (k_time (fstate 1))) with n.
  rewrite Updates1_ok by lia. f_equal. f_equal. lia.
Qed.

Lemma lt_prefix_le l t : lt_prefix A l t <= length l.
Proof. induction l as [|x l IH]; simpl; [lia|]. destruct (flt A x t); lia. Qed.

Lemma ipredict_ok t : ipredict A time t = Ok (lt_prefix A time t).
Proof using Hwf.
  unfold ipredict. destruct Hwf as (H & _). unfold time. destruct (k_time s); [simpl in H; lia|reflexivity].
Qed.

(** the object during the interpolation phase: after the coefficients for index ip + k are set *)
Section Coefs.
Variables (t : F) (ip : nat) (sm : list F) (sv : list F).
Hypothesis Hsm : length sm = n.
Hypothesis Hsv : length sv = n.
Let cc := cconst time dt y yerr sig w t ip.
Let cs := cslope time dt y yerr sig w t ip.
Let cv := cvar time dt y yerr sig w t ip.
Let vv i := if i <? ip then vp i else cv (i - ip).
Definition cstate (k : nat) : kf1 A :=
  mkKF A time dt y yerr sm (filled vv (S (ip + k)) sv) sig (S (ip + k)) (cc k) (cs k) w.

Lemma cpure_eq k : cpure time dt y yerr sig w t ip k = (cc k, cs k, cv k).
Proof. unfold cc, cs, cv, cconst, cslope, cvar. destruct (cpure _ _ _ _ _ _ _ _ k) as [[? ?] ?]. reflexivity. Qed.

Lemma InitializeCoefs1_ok m c co sl : ip < n ->
  (forall i, i < ip -> nth i sv (#0) = vp i) ->
  InitializeCoefs1 (mkKF A time dt y yerr m sv sig c co sl w) t ip =
  Ok (mkKF A time dt y yerr m (filled vv (S (ip + 0)) sv) sig (S (ip + 0)) (cc 0) (cs 0) w).
Proof using Hwf Hsv.
  clear -Hwf Hsv. intros Hip Hpre. wfd. unfold n, time in *. unfold InitializeCoefs1. cbn [k_time k_yerr k_var k_ext k_sig].
  rewrite (vget_ok _ (#0)) by lia. cbn [bind].
  rewrite (vget_ok _ (#0)) by (unfold yerr; lia). cbn [bind].
  rewrite vsetU_ok by lia. cbn [bind]. rewrite Nat.add_0_r.
  unfold set_cur, set_coefs, set_var; cbn [k_time k_dt k_y k_yerr k_mean k_var k_sig k_cur k_yconst k_yslope k_ext].
  f_equal. f_equal.
  assert (sv = filled vv ip sv) as E.
  { apply nth_ext with (d:=#0) (d':=#0); [rewrite filled_length; lia|].
    intros i Hi. destruct (Nat.ltb_spec i ip) as [Hlt|Hge].
    - rewrite nth_filled by exact Hlt. unfold vv. apply Nat.ltb_lt in Hlt as Hb. rewrite Hb. apply Hpre, Hlt.
    - unfold filled. rewrite app_nth2 by (rewrite map_length, seq_length; lia).
      rewrite map_length, seq_length.
      rewrite <- (firstn_skipn ip sv) at 1. rewrite app_nth2 by (rewrite firstn_length; lia).
      rewrite firstn_length. f_equal. lia. }
  rewrite E at 1. rewrite <- (upd_filled vv) by lia. f_equal.
  unfold vv. rewrite Nat.ltb_irrefl, Nat.sub_diag. reflexivity.
Qed.

Lemma UpdateCoefs1_ok k : S (ip + k) < n -> UpdateCoefs1 (cstate k) = Ok (cstate (S k)).
Proof using Hwf Hsv.
  clear -Hwf Hsv. intros Hk. wfd. unfold n, time in *. unfold UpdateCoefs1.
  cbn [k_cur cstate idxm1 bind k_dt k_var k_yerr k_mean k_y k_ext k_yslope k_yconst].
  rewrite (vget_ok _ (#0)) by (unfold dt; lia). cbn [bind].
  rewrite (vget_ok _ (#0)) by (rewrite filled_length; lia). cbn [bind].
  rewrite (vget_ok _ (#0)) by (unfold yerr; lia). cbn [bind].
  rewrite (vgetU_ok _ (#0)) by (unfold y; lia). cbn [bind].
  rewrite (vget_ok _ (#0)) by (unfold yerr; lia). cbn [bind].
  rewrite vset_ok by (rewrite filled_length; lia). cbn [bind].
  rewrite (@nth_filled _ _ (S (ip + k))) by lia.
  replace (vv (ip + k)) with (cv k)
    by (unfold vv; destruct (Nat.ltb_spec (ip + k) ip); [lia|]; f_equal; lia).
  unfold cstate, set_cur, set_coefs, set_var; cbn [k_time k_dt k_y k_yerr k_mean k_var k_sig k_cur k_yconst k_yslope k_ext].
  assert (cpure (k_time s) dt y yerr sig w t ip (S k) = (cc (S k), cs (S k), cv (S k))) as E by apply cpure_eq.
  cbn [cpure] in E. rewrite cpure_eq in E. injection E as E1 E2 E3.
  f_equal.
  replace (ip + S k) with (S (ip + k)) by lia.
  f_equal.
  - rewrite <- (upd_filled vv (k:=S (ip+k))) by lia. f_equal.
    transitivity (cv (S k)).
    + rewrite <- E3. reflexivity.
    + unfold vv. destruct (Nat.ltb_spec (S (ip + k)) ip); [lia|]. f_equal. lia.
  - exact E1.
  - exact E2.
Qed.

Lemma accum_ok k a : ip + k < n ->
  accum (ip + k) (cstate k) a = Ok (apure1 time dt y yerr sig w t ip k a).
Proof using Hwf Hsv.
  clear -Hwf Hsv. intros Hk. wfd. unfold n, time in *. destruct a as [m p]. unfold accum, cstate. cbn [k_var k_y k_yslope k_yconst].
  rewrite (vget_ok _ (#0)) by (rewrite filled_length; lia). cbn [bind].
  rewrite (vget_ok _ (#0)) by (unfold y; lia). cbn [bind].
  rewrite nth_filled by lia.
  replace (vv (ip + k)) with (cv k)
    by (unfold vv; destruct (Nat.ltb_spec (ip + k) ip); [lia|]; f_equal; lia).
  reflexivity.
Qed.
End Coefs.

(** the filter object returned by Predict(t): same data and parameters, some mean/var/coefficients *)
Definition same_setup {X} (s s' : kf A X) : Prop :=
  k_time s' = k_time s /\ k_dt s' = k_dt s /\ k_y s' = k_y s /\ k_yerr s' = k_yerr s /\ k_sig s' = k_sig s /\
  k_ext s' = k_ext s.

Lemma Predict1_ok t : exists s',
  Predict1 s t = Ok (predpure time dt y yerr sig w t, s') /\ same_setup s s' /\ wf s' /\
  (lt_prefix A time t < n ->
   nth (lt_prefix A time t) (k_var s') (#0) = cvar time dt y yerr sig w t (lt_prefix A time t) 0).
Proof using Hwf.
  assert (1 <= n /\ length (k_mean s) = n /\ length (k_var s) = n /\ length yerr = n /\ length y = n /\ length time = n) as (Hn & Hm & Hv & He & Hy & _)
    by (destruct Hwf as (H1 & H2 & H3 & H4 & H5 & H6); repeat split; assumption).
  unfold Predict1. fold time. rewrite ipredict_ok. cbn [bind]. rewrite Reset1_ok. cbn [bind].
  set (ip := lt_prefix A time t). assert (ip <= n) as Hip by apply lt_prefix_le.
  rewrite Updates1_ok by lia. cbn [bind].
  set (s2 := fstate (1 + (ip - 1))).
  assert (wf s2) as Hwf2.
  { destruct Hwf as (H1 & H2 & H3 & H4 & H5 & H6). unfold wf, s2, fstate; cbn [k_time k_dt k_y k_yerr k_mean k_var].
    rewrite !filled_length by (unfold n, time in *; lia). repeat split; assumption. }
  match goal with |- context [bind (match ip with O => ?a | S b => @?f b end)] =>
    assert (match ip with O => a | S b => f b end = Ok (forecast time dt y yerr sig w t ip)) as E end.
  { destruct ip as [|b] eqn:Eip; [reflexivity|].
    assert (s2 = fstate (S b)) as -> by (unfold s2; f_equal; lia).
    cbn [k_time k_dt k_y k_yerr k_mean k_var k_sig k_ext fstate].
    rewrite (vgetU_ok _ (#0)) by (unfold n in *; lia). cbn [bind].
    rewrite (vget_ok _ (#0)) by (rewrite filled_length; lia). cbn [bind].
    rewrite (vget_ok _ (#0)) by lia. cbn [bind].
    rewrite (vget_ok _ (#0)) by (rewrite filled_length; lia). cbn [bind].
    rewrite (vget_ok _ (#0)) by lia. cbn [bind].
    rewrite !(@nth_filled _ _ (S b)) by lia. reflexivity. }
  rewrite E. cbn [bind]. clear E.
  unfold predpure. fold ip.
  destruct (forecast time dt y yerr sig w t ip) as [m0 v0] eqn:Ef. cbn [bind].
  change (length (k_time s2)) with n. change (length time) with n.
  destruct (Nat.eqb_spec ip n) as [Heq|Hneq].
  { exists s2. split; [reflexivity|]. split; [repeat split|]. split; [exact Hwf2|]. fold ip. lia. }
  assert (ip < n) as Hlt by lia.
  set (sm := k_mean s2). set (sv := k_var s2).
  assert (length sv = n) as Hsv by (unfold sv, s2, fstate; cbn [k_var]; rewrite filled_length; lia).
  assert (length sm = n) as Hsm by (unfold sm, s2, fstate; cbn [k_mean]; rewrite filled_length; lia).
  assert (s2 = mkKF A time dt y yerr sm sv sig (k_cur s2) (k_yconst s2) (k_yslope s2) w) as Es2 by reflexivity.
  rewrite Es2.
  rewrite (@InitializeCoefs1_ok t ip sv Hsv) ; [|exact Hlt|].
  2:{ intros i Hi. unfold sv, s2, fstate. cbn [k_var]. apply nth_filled. lia. }
  cbn [bind].
  change (mkKF A time dt y yerr sm (filled (fun i => if i <? ip then vp i else cvar time dt y yerr sig w t ip (i - ip)) (S (ip + 0)) sv) sig (S (ip+0)) (cconst time dt y yerr sig w t ip 0) (cslope time dt y yerr sig w t ip 0) w)
    with (cstate t ip sm sv 0).
  set (a0 := (m0 ⊗ (#1 ⊘ v0), #1 ⊘ v0)).
  assert (accum ip (cstate t ip sm sv 0) a0 = Ok (apure1 time dt y yerr sig w t ip 0 a0)) as Hacc0.
  { rewrite <- (@accum_ok t ip sm sv Hsv 0 a0) by lia. f_equal. lia. }
  rewrite Hacc0. cbn [bind].
  set (body := fun (i : nat) '(s, a) => _).
  pose (st := fun i => (cstate t ip sm sv (i - ip - 1), apure time dt y yerr sig w t ip (i - ip) a0)).
  assert (forall k, S ip + k <= n -> for_ (S ip) k body (cstate t ip sm sv 0, apure1 time dt y yerr sig w t ip 0 a0) = Ok (st (S ip + k))) as Hloop.
  { intros k Hk. replace (cstate t ip sm sv 0, apure1 time dt y yerr sig w t ip 0 a0) with (st (S ip)).
    2:{ unfold st. replace (S ip - ip - 1) with 0 by lia. replace (S ip - ip) with 1 by lia. reflexivity. }
    apply for_exact. intros i H1 H2. unfold st at 1, body.
    replace (S i - ip - 1) with (S (i - ip - 1)) by lia.
    rewrite UpdateCoefs1_ok by lia. cbn [bind].
    replace i with (ip + S (i - ip - 1)) at 1 by lia.
    rewrite accum_ok by lia. cbn [bind]. unfold st.
    replace (S i - ip - 1) with (S (i - ip - 1)) by lia.
    replace (S i - ip) with (S (i - ip)) by lia. cbn [apure].
    replace (S (i - ip - 1)) with (i - ip) by lia. reflexivity. }
  rewrite Hloop by lia. cbn [bind]. unfold st at 1.
  replace (S ip + (n - S ip)) with n by lia.
  destruct (apure time dt y yerr sig w t ip (n - ip) a0) as [mm pp] eqn:Ea.
  eexists. split; [reflexivity|]. split; [repeat split|]. split.
  - destruct Hwf as (H1 & H2 & H3 & H4 & H5 & H6). unfold wf, cstate; cbn [k_time k_dt k_y k_yerr k_mean k_var].
    rewrite filled_length by (unfold n, time in *; lia). repeat split; assumption.
  - intros _. fold ip. unfold cstate; cbn [k_var]. rewrite nth_filled by lia.
    rewrite Nat.ltb_irrefl, Nat.sub_diag. reflexivity.
Qed.
End Run.
End KF1.
