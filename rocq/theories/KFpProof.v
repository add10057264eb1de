(** KalmanFilterp: what Filter and Predict compute, for every arithmetic and every solver. *)
From Coq Require Import List Arith ZArith Lia Bool.
From Verif Require Import Arith Res ListLemmas KFModel KF1Proof History Cx KFpModel.
Import ListNotations.

Set Implicit Arguments.

Section Gen.
Variable A : Arith.
Local Notation F := (F A).
Local Notation cx := (cx A).
Local Notation "x ⊕ y" := (fadd A x y) (at level 50, left associativity).
Local Notation "x ⊖ y" := (fsub A x y) (at level 50, left associativity).
Local Notation "x ⊗ y" := (fmul A x y) (at level 40, left associativity).
Local Notation "x ⊘ y" := (fdiv A x y) (at level 40, left associativity).
Local Notation "# z" := (fofZ A z) (at level 5).
Local Notation vec := (list cx).
Local Notation mat := (list (list cx)).
Local Notation at_ l i := (nth i l (#0)).

Lemma vbuild_len T n (f : nat -> T) : length (vbuild n f) = n.
Proof. unfold vbuild. rewrite map_length, seq_length. reflexivity. Qed.

Lemma vbuild_nth T n (f : nat -> T) i d : i < n -> nth i (vbuild n f) d = f i.
Proof. intros H. unfold vbuild. apply nth_map_seq, H. Qed.

Lemma is_mat_mbuild T r c (f : nat -> nat -> T) : is_mat r c (mbuild r c f) = true.
Proof.
  unfold is_mat, mbuild. rewrite vbuild_len, Nat.eqb_refl. cbn [andb]. apply forallb_forall.
  intros row H. unfold vbuild at 1 in H. apply in_map_iff in H. destruct H as (i & <- & _).
  rewrite vbuild_len. apply Nat.eqb_refl.
Qed.

Lemma ipredict_wf X (s : kf A X) t : wf s -> ipredict A (k_time s) t = Ok (lt_prefix A (k_time s) t).
Proof. intros (H & _). unfold ipredict. destruct (k_time s); [simpl in H; lia|reflexivity]. Qed.

Section Pure.
Variables (time dt y yerr : list F).
Variables (p : nat) (om b : vec) (SV : mat).

Definition fcore := (vec * mat)%type.
Definition fvar (x : fcore) (i : nat) : F := quadf p b (snd x) ⊕ at_ yerr i ⊗ at_ yerr i.
Definition fmean (x : fcore) (i : nat) : F := match i with O => #0 | _ => linf p b (fst x) end.
Definition finn (x : fcore) (i : nat) : F := match i with O => at_ y 0 | _ => at_ y i ⊖ linf p b (fst x) end.
Definition fstep (x : fcore) (i : nat) (d : F) : fcore :=
  let g := gainf p b (snd x) (fvar x i) in
  let r := rhof p om d in
  (schur p r (axpy p (fst x) g (finn x i)), propV p r (condV p (snd x) g (fvar x i)) SV).
(** predicted state and its covariance at index i given the observations before i *)
Fixpoint fcorep (i : nat) : fcore :=
  match i with O => (czeros A p, SV) | S k => fstep (fcorep k) k (at_ dt k) end.
Definition vp (i : nat) : F := fvar (fcorep i) i.
Definition mp (i : nat) : F := fmean (fcorep i) i.

Definition pcore := (vec * vec * mat)%type.
Definition pconst (x : pcore) : F := linf p b (fst (fst x)).
Definition pslope (x : pcore) : F := linf p b (snd (fst x)).
Definition pvar (x : pcore) (i : nat) : F := quadf p b (snd x) ⊕ at_ yerr i ⊗ at_ yerr i.
Definition pstep (x : pcore) (i : nat) (d : F) : pcore :=
  let v := pvar x i in
  let g := gainf p b (snd x) v in
  let r := rhof p om d in
  (schur p r (axpy p (fst (fst x)) g (at_ y i ⊖ pconst x)), schur p r (axmy p (snd (fst x)) g (pslope x)),
   propV p r (condV p (snd x) g v) SV).
Definition pinit (x : fcore) (m v d : F) : pcore :=
  let g := gainf p b (snd x) v in
  let r := rhof p om d in
  (schur p r (axmy p (fst x) g m), schur p r g, propV p r (condV p (snd x) g v) SV).

(** state at the prediction time t, given the observations before index ip *)
Definition fcast (t : F) (ip : nat) : fcore :=
  match ip with O => (czeros A p, SV) | S k => fstep (fcorep k) k (fabs A (t ⊖ at_ time k)) end.
Definition fcastmv (t : F) (ip : nat) : F * F := (fmean (fcast t ip) ip, quadf p b (snd (fcast t ip))).

Section Coefs.
Variables (t : F) (ip : nat) (m v : F).
Fixpoint pcorep (k : nat) : pcore :=
  match k with
  | O => pinit (fcast t ip) m v (fabs A (at_ time ip ⊖ t))
  | S j => pstep (pcorep j) (ip + j) (at_ dt (ip + j))
  end.
Definition pacc1 (k : nat) (a : F * F) : F * F :=
  let x := pcorep k in
  (fst a ⊕ pslope x ⊗ (at_ y (ip + k) ⊖ pconst x) ⊘ pvar x (ip + k), snd a ⊕ pslope x ⊗ pslope x ⊘ pvar x (ip + k)).
Fixpoint pacc (k : nat) (a : F * F) : F * F := match k with O => a | S j => pacc1 j (pacc j a) end.
End Coefs.

Definition predp (t : F) : F * F :=
  let ip := lt_prefix A time t in
  let '(m0, v0) := fcastmv t ip in
  if ip =? length time then (m0, v0) else
  let prec := #1 ⊘ v0 in
  let mm := m0 ⊗ prec in
  let '(mm', prec') := pacc t ip (mm ⊘ prec) v0 (length time - ip) (mm, prec) in
  (mm' ⊗ (#1 ⊘ prec'), #1 ⊘ prec').
End Pure.

Variable solve : mat -> vec -> option vec.

Definition parp := (vec * list F)%type.
Definition par_of (x : kpx A) : parp := (x_omega x, x_ma x).
Definition setparp (s : kfp A) (q : parp) : kfp A := SetMAp (SetOmegap s (fst q)) (snd q).
Definition goodp (s : kfp A) : Prop := dims_ok (k_ext s) = true.

(** the failures of Reset *)
Definition resetp (u : setup A parp) : res vec :=
  let om := fst (s_par u) in
  if length om <? 2 then Throw Elogic else
  match solve (EigenMat om) (Rvector A (length om)) with
  | None => Throw Eruntime
  | Some J => if length (snd (s_par u)) =? length om then Ok J else Throw Elogic
  end.
Definition pfp (u : setup A parp) : res (list F * list F) :=
  let om := fst (s_par u) in
  let b := rotated om (snd (s_par u)) in
  J <- resetp u ;;
  let SV := StateVar (s_sig u) om J in
  Ok (map (mp (s_dt u) (s_y u) (s_yerr u) (length om) om b SV) (seq 0 (length (s_time u))),
      map (vp (s_dt u) (s_y u) (s_yerr u) (length om) om b SV) (seq 0 (length (s_time u)))).
Definition ppp (u : setup A parp) (t : F) : res (F * F) :=
  let om := fst (s_par u) in
  let b := rotated om (snd (s_par u)) in
  J <- resetp u ;;
  Ok (predp (s_time u) (s_dt u) (s_y u) (s_yerr u) (length om) om b (StateVar (s_sig u) om J) t).

Section Run.
Variable s : kfp A.
Hypothesis Hwf : wf s.
Hypothesis Hgood : goodp s.
Let time := k_time s. Let dt := k_dt s. Let y := k_y s. Let yerr := k_yerr s.
Let om := x_omega (k_ext s). Let ma := x_ma (k_ext s). Let p := length om.
Let n := length time.
Let b := rotated om ma.
Variable J : vec.
Hypothesis HJ : resetp (setup_of par_of s) = Ok J.
Let SV := StateVar (k_sig s) om J.
Let fc := fcorep dt y yerr p om b SV.
Let vP := vp dt y yerr p om b SV.
Let mP := mp dt y yerr p om b SV.

(** the object after Reset and i-1 Updates; [gn], [rh], [co], [sl] are left-overs *)
Definition fstatep (i : nat) gn rh co sl : kfp A :=
  mkKF A time dt y yerr (filled mP i (k_mean s)) (filled vP i (k_var s)) (k_sig s) i (k_yconst s) (k_yslope s)
    (mkX om ma (fst (fc (i - 1))) SV b (snd (fc (i - 1))) gn rh (finn y p b (fc (i - 1)) (i - 1)) co sl).

Ltac wfd := destruct Hwf as (Hn & Hdt & Hy & Hyerr & Hmean & Hvar).

Lemma Resetp_ok : Resetp solve s = Ok (fstatep 1 (x_gain (k_ext s)) (x_rho (k_ext s)) (x_const (k_ext s)) (x_slope (k_ext s))).
Proof using Hwf Hgood HJ.
  clear -Hwf Hgood HJ. wfd. unfold resetp in HJ. cbn [setup_of s_par par_of fst snd] in HJ.
  fold om in HJ. fold ma in HJ. unfold Resetp. fold om. fold ma. cbv zeta.
  destruct (length om <? 2); [discriminate|].
  destruct (solve (EigenMat om) (Rvector A (length om))) as [J'|]; [|discriminate].
  destruct (length ma =? length om); [|discriminate]. injection HJ as ->. cbn [negb].
  rewrite Hgood. cbn [negb].
  rewrite vset_ok by lia. cbn [bind].
  rewrite (vget_ok _ (#0)) by lia. cbn [bind].
  rewrite vset_ok by lia. cbn [bind].
  rewrite (vget_ok _ (#0)) by lia. cbn [bind].
  unfold fstatep. f_equal. unfold set_cur, set_coefs, set_var, set_mean, set_ext; cbn [k_time k_dt k_y k_yerr k_mean k_var k_sig k_cur k_yconst k_yslope k_ext].
  f_equal.
  - rewrite <- (upd_filled mP (k:=0)) by lia. reflexivity.
  - rewrite <- (upd_filled vP (k:=0)) by lia. reflexivity.
Qed.

Lemma Updatep_ok i gn rh co sl : 1 <= i -> i < n -> exists gn' rh',
  Updatep (fstatep i gn rh co sl) = Ok (fstatep (S i) gn' rh' co sl).
Proof using Hwf.
  clear -Hwf. wfd. unfold n, time in *. intros H1 H2. destruct i as [|k]; [lia|].
  unfold Updatep. cbn [k_cur fstatep idxm1 bind k_dt k_var k_yerr k_mean k_y k_ext x_omega x_ma x_rma x_PV x_SV x_state x_innov x_const x_slope].
  rewrite (vget_ok _ (#0)) by (rewrite filled_length; lia). cbn [bind].
  rewrite (vget_ok _ (#0)) by (unfold dt; lia). cbn [bind].
  rewrite vset_ok by (rewrite filled_length; lia). cbn [bind].
  rewrite (vget_ok _ (#0)) by (unfold yerr; lia). cbn [bind].
  rewrite vset_ok by (rewrite filled_length; lia). cbn [bind].
  rewrite (vget_ok _ (#0)) by (unfold y; lia). cbn [bind].
  rewrite !(@nth_filled _ _ (S k)) by lia.
  eexists. eexists.
  unfold fstatep, set_cur, set_var, set_mean, set_ext; cbn [k_time k_dt k_y k_yerr k_mean k_var k_sig k_cur k_yconst k_yslope k_ext].
  replace (S k - 1) with k by lia. replace (S (S k) - 1) with (S k) by lia.
  f_equal. f_equal.
  - rewrite <- (upd_filled mP (k:=S k)) by lia. reflexivity.
  - rewrite <- (upd_filled vP (k:=S k)) by lia. reflexivity.
Qed.

Lemma Updatesp_ok k gn rh co sl : k < n -> exists gn' rh',
  for_ 1 k (fun _ s => Updatep s) (fstatep 1 gn rh co sl) = Ok (fstatep (1 + k) gn' rh' co sl).
Proof using Hwf.
  intros Hk. assert (forall k a gn rh, 1 <= a -> a + k <= n -> exists gn' rh',
    for_ a k (fun _ s => Updatep s) (fstatep a gn rh co sl) = Ok (fstatep (a + k) gn' rh' co sl)) as H.
  { clear k Hk. intros k. induction k as [|k IH]; intros a g0 r0 Ha Hk.
    - exists g0, r0. rewrite Nat.add_0_r. reflexivity.
    - cbn [for_]. destruct (@Updatep_ok a g0 r0 co sl) as (g1 & r1 & E); [lia|lia|]. rewrite E. cbn [bind].
      destruct (IH (S a) g1 r1) as (g2 & r2 & E2); [lia|lia|]. exists g2, r2. rewrite E2. f_equal. f_equal. lia. }
  apply H; lia.
Qed.

Lemma fstatep_wf i gn rh co sl : i <= n -> wf (fstatep i gn rh co sl).
Proof using Hwf.
  intros Hi. destruct Hwf as (H1 & H2 & H3 & H4 & H5 & H6). unfold wf, fstatep; cbn [k_time k_dt k_y k_yerr k_mean k_var].
  unfold n, time in *. rewrite !filled_length by lia. repeat split; assumption.
Qed.

Lemma fst_fcorep_len i : length (fst (fc i)) = p.
Proof. destruct i; cbn; [apply repeat_length|apply vbuild_len]. Qed.

Lemma is_mat_SV : is_mat p p SV = true.
Proof. unfold SV, StateVar. apply is_mat_mbuild. Qed.

Lemma good_mk X T PV gn rh inn co sl x1 x2 x3 x4 x5 x6 x7 x8 x9 x10 : length X = p ->
  T = mkX om ma X SV b PV gn rh inn co sl ->
  goodp (mkKF A x1 x2 x3 x4 x5 x6 x7 x8 x9 x10 T).
Proof.
  intros H ->. unfold goodp, dims_ok. cbn [k_ext x_state x_omega x_SV]. fold p. rewrite H, Nat.eqb_refl, is_mat_SV. reflexivity.
Qed.

Lemma Filterp_ok : exists gn rh, Filter (methodsp solve) s = Ok (fstatep n gn rh (x_const (k_ext s)) (x_slope (k_ext s))).
Proof using Hwf Hgood HJ.
  unfold Filter. cbn [m_Reset m_Update methodsp]. rewrite Resetp_ok. cbn [bind].
  assert (1 <= n) as Hn by (destruct Hwf as (H & _); exact H).
  match goal with |- context [length (k_time ?q)] => change (length (k_time q)) with n end.
  destruct (@Updatesp_ok (n - 1) (x_gain (k_ext s)) (x_rho (k_ext s)) (x_const (k_ext s)) (x_slope (k_ext s))) as (g & r & E); [lia|].
  exists g, r. etransitivity; [exact E|]. f_equal. f_equal. lia.
Qed.

(** *** Predict *)
Section Coefs.
Variables (t : F) (ip : nat) (m v : F) (sm sv : list F) (st : vec) (inn : F).
Hypothesis Hsv : length sv = n.
Let pc := pcorep time dt y yerr p om b SV t ip m v.
Let vv i := if i <? ip then vP i else pvar yerr p b (pc (i - ip)) i.
Definition cstatep (k : nat) gn rh : kfp A :=
  mkKF A time dt y yerr sm (filled vv (S (ip + k)) sv) (k_sig s) (S (ip + k)) (pconst p b (pc k)) (pslope p b (pc k))
    (mkX om ma st SV b (snd (pc k)) gn rh inn (fst (fst (pc k))) (snd (fst (pc k)))).

Lemma vv_at k : vv (ip + k) = pvar yerr p b (pc k) (ip + k).
Proof using. clear Hsv HJ Hgood Hwf. unfold vv. destruct (Nat.ltb_spec (ip + k) ip); [lia|]. replace (ip + k - ip) with k by lia. reflexivity. Qed.

Lemma InitializeCoefsp_ok c0 a0 b0 gn rh co sl : ip < n ->
  (forall i, i < ip -> nth i sv (#0) = vP i) ->
  st = fst (fcast time dt y yerr p om b SV t ip) ->
  exists gn' rh',
  InitializeCoefsp (mkKF A time dt y yerr sm sv (k_sig s) c0 a0 b0
      (mkX om ma st SV b (snd (fcast time dt y yerr p om b SV t ip)) gn rh inn co sl)) t ip m v
  = Ok (cstatep 0 gn' rh').
Proof using Hwf Hsv.
  clear HJ Hgood. intros Hip Hpre Est. wfd. unfold n, time in *. unfold InitializeCoefsp.
  cbn [k_cur k_time bind k_dt k_var k_yerr k_mean k_y k_ext x_omega x_ma x_rma x_PV x_SV x_state x_innov x_const x_slope].
  rewrite (vget_ok _ (#0)) by lia. cbn [bind].
  rewrite (vget_ok _ (#0)) by (unfold yerr; lia). cbn [bind].
  rewrite vset_ok by lia. cbn [bind].
  eexists. eexists. unfold cstatep. rewrite Nat.add_0_r.
  unfold set_cur, set_coefs, set_var, set_ext; cbn [k_time k_dt k_y k_yerr k_mean k_var k_sig k_cur k_yconst k_yslope k_ext].
  assert (sv = filled vv ip sv) as E.
  { apply nth_ext with (d:=#0) (d':=#0); [rewrite filled_length; lia|].
    intros i Hi. destruct (Nat.ltb_spec i ip) as [Hlt|Hge].
    - rewrite nth_filled by exact Hlt. unfold vv. apply Nat.ltb_lt in Hlt as Hb. rewrite Hb. apply Hpre, Hlt.
    - unfold filled. rewrite app_nth2 by (rewrite map_length, seq_length; lia).
      rewrite map_length, seq_length.
      rewrite <- (firstn_skipn ip sv) at 1. rewrite app_nth2 by (rewrite firstn_length; lia).
      rewrite firstn_length. f_equal. lia. }
  f_equal. f_equal.
  - rewrite E at 1. rewrite <- (upd_filled vv) by lia. f_equal.
    pose proof (vv_at 0) as Hv0. rewrite Nat.add_0_r in Hv0. rewrite Hv0. reflexivity.
  - rewrite Est. reflexivity.
  - f_equal. rewrite Est. reflexivity.
Qed.

Lemma UpdateCoefsp_ok k gn rh : S (ip + k) < n -> exists gn' rh',
  UpdateCoefsp (cstatep k gn rh) = Ok (cstatep (S k) gn' rh').
Proof using Hwf Hsv.
  clear HJ Hgood. intros Hk. wfd. unfold n, time in *. unfold UpdateCoefsp.
  cbn [k_cur cstatep idxm1 bind k_dt k_var k_yerr k_mean k_y k_ext k_yslope k_yconst x_omega x_ma x_rma x_PV x_SV x_state x_innov x_const x_slope].
  rewrite (vget_ok _ (#0)) by (rewrite filled_length; lia). cbn [bind].
  rewrite (vget_ok _ (#0)) by (unfold y; lia). cbn [bind].
  rewrite (vget_ok _ (#0)) by (unfold dt; lia). cbn [bind].
  rewrite (vget_ok _ (#0)) by (unfold yerr; lia). cbn [bind].
  rewrite vset_ok by (rewrite filled_length; lia). cbn [bind].
  rewrite (@nth_filled _ _ (S (ip + k))) by lia. rewrite vv_at.
  eexists. eexists.
  unfold cstatep, set_cur, set_coefs, set_var, set_ext; cbn [k_time k_dt k_y k_yerr k_mean k_var k_sig k_cur k_yconst k_yslope k_ext].
  replace (ip + S k) with (S (ip + k)) by lia.
  f_equal. f_equal.
  rewrite <- (upd_filled vv (k:=S (ip+k))) by lia. f_equal.
  pose proof (vv_at (S k)) as Hv1. replace (ip + S k) with (S (ip + k)) in Hv1 by lia. rewrite Hv1. reflexivity.
Qed.

Lemma accump_ok k gn rh a : ip + k < n ->
  accum (ip + k) (cstatep k gn rh) a = Ok (pacc1 time dt y yerr p om b SV t ip m v k a).
Proof using Hwf Hsv.
  clear HJ Hgood. intros Hk. wfd. unfold n, time in *. destruct a as [m' p']. unfold accum, cstatep. cbn [k_var k_y k_yslope k_yconst].
  rewrite (vget_ok _ (#0)) by (rewrite filled_length; lia). cbn [bind].
  rewrite (vget_ok _ (#0)) by (unfold y; lia). cbn [bind].
  rewrite nth_filled by lia. rewrite vv_at. reflexivity.
Qed.
End Coefs.

Lemma Predictp_ok t : exists s',
  Predictp solve s t = Ok (predp time dt y yerr p om b SV t, s') /\
  setup_of par_of s' = setup_of par_of s /\ wf s' /\ goodp s'.
Proof using Hwf Hgood HJ.
  assert (1 <= n /\ length (k_mean s) = n /\ length (k_var s) = n /\ length yerr = n /\ length y = n /\ length time = n) as (Hn & Hm & Hv & He & Hy & _)
    by (destruct Hwf as (H1 & H2 & H3 & H4 & H5 & H6); repeat split; assumption).
  unfold Predictp. fold time. unfold time at 1. rewrite (ipredict_wf t Hwf). cbn [bind]. rewrite Resetp_ok. cbn [bind].
  fold time. set (ip := lt_prefix A time t). assert (ip <= n) as Hip by apply lt_prefix_le'.
  destruct (@Updatesp_ok (ip - 1) (x_gain (k_ext s)) (x_rho (k_ext s)) (x_const (k_ext s)) (x_slope (k_ext s))) as (g1 & r1 & E); [lia|].
  rewrite E. cbn [bind]. clear E.
  set (i1 := 1 + (ip - 1)).
  match goal with |- context [fstatep i1 g1 r1 ?co ?sl] => set (s2 := fstatep i1 g1 r1 co sl) end.
  set (F0 := fcast time dt y yerr p om b SV t ip).
  pose (s3 := fun gn rh inn => mkKF A time dt y yerr (filled mP i1 (k_mean s)) (filled vP i1 (k_var s)) (k_sig s) i1 (k_yconst s) (k_yslope s)
                (mkX om ma (fst F0) SV b (snd F0) gn rh inn (x_const (k_ext s)) (x_slope (k_ext s)))).
  assert (length (fst F0) = p) as HF0.
  { unfold F0, fcast. destruct ip; cbn; [apply repeat_length|apply vbuild_len]. }
  assert (i1 <= n) as Hi1 by (unfold i1; lia).
  match goal with |- context [bind (match ip with O => ?a | S q => @?f q end)] =>
    assert (exists gn rh inn, match ip with O => a | S q => f q end = Ok (fcastmv time dt y yerr p om b SV t ip, s3 gn rh inn)) as (gn & rh & inn & E) end.
  { unfold s3, F0, fcastmv. destruct ip as [|k] eqn:Eip.
    - exists g1, r1, (at_ y 0). reflexivity.
    - assert (i1 = S k) as Ei by (unfold i1; lia). unfold s2. rewrite Ei.
      cbn [k_time k_dt k_y k_yerr k_mean k_var k_sig k_ext fstatep x_omega x_ma x_rma x_PV x_SV x_state x_innov x_const x_slope].
      rewrite (vget_ok _ (#0)) by (rewrite filled_length; lia). cbn [bind].
      rewrite (vget_ok _ (#0)) by (unfold n in *; lia). cbn [bind].
      rewrite !(@nth_filled _ _ (S k)) by lia.
      replace (S k - 1) with k by lia.
      eexists. eexists. eexists. reflexivity. }
  rewrite E. cbn [bind]. clear E.
  unfold predp. fold ip.
  destruct (fcastmv time dt y yerr p om b SV t ip) as [m0 v0] eqn:Ef. cbn [bind].
  change (length (k_time (s3 gn rh inn))) with n. change (length time) with n.
  assert (wf (s3 gn rh inn)) as Hwf3.
  { destruct Hwf as (H1 & H2 & H3 & H4 & H5 & H6). unfold wf, s3; cbn [k_time k_dt k_y k_yerr k_mean k_var].
    unfold n, time in *. rewrite !filled_length by lia. repeat split; assumption. }
  destruct (Nat.eqb_spec ip n) as [Heq|Hneq].
  { exists (s3 gn rh inn). split; [reflexivity|]. split; [reflexivity|]. split; [exact Hwf3|].
    unfold s3. eapply good_mk; [exact HF0|reflexivity]. }
  assert (ip < n) as Hlt by lia.
  set (prec := #1 ⊘ v0). set (mm := m0 ⊗ prec).
  set (sm := filled mP i1 (k_mean s)). set (sv := filled vP i1 (k_var s)).
  assert (length sv = n) as Hsv by (unfold sv; rewrite filled_length; lia).
  assert (length sm = n) as Hsm by (unfold sm; rewrite filled_length; lia).
  destruct (@InitializeCoefsp_ok t ip (mm ⊘ prec) v0 sm sv (fst F0) inn Hsv i1 (k_yconst s) (k_yslope s) gn rh (x_const (k_ext s)) (x_slope (k_ext s)))
    as (g2 & r2 & E2); [exact Hlt| |reflexivity|].
  { intros i Hi. unfold sv. apply nth_filled. unfold i1. lia. }
  fold F0 in E2.
  change (InitializeCoefsp (s3 gn rh inn) t ip (mm ⊘ prec) v0 = Ok (cstatep t ip (mm ⊘ prec) v0 sm sv (fst F0) inn 0 g2 r2)) in E2.
  rewrite E2. cbn [bind]. clear E2.
  set (a0 := (mm, prec)).
  set (PA := pacc1 time dt y yerr p om b SV t ip (mm ⊘ prec) v0).
  pose (CS := cstatep t ip (mm ⊘ prec) v0 sm sv (fst F0) inn).
  assert (accum ip (CS 0 g2 r2) a0 = Ok (PA 0 a0)) as Hacc0.
  { unfold CS, PA. rewrite <- (@accump_ok t ip (mm ⊘ prec) v0 sm sv (fst F0) inn Hsv 0 g2 r2 a0) by lia. f_equal. lia. }
  fold CS. rewrite Hacc0. cbn [bind].
  set (body := fun (i : nat) '(s, a) => _).
  assert (forall j k gn rh, S ip + (k + j) <= n -> exists gn' rh',
     for_ (S ip + k) j body (CS k gn rh, pacc time dt y yerr p om b SV t ip (mm ⊘ prec) v0 (S k) a0)
     = Ok (CS (k + j) gn' rh', pacc time dt y yerr p om b SV t ip (mm ⊘ prec) v0 (S (k + j)) a0)) as Hloop.
  { induction j as [|j IH]; intros k gn0 rh0 Hk.
    - exists gn0, rh0. rewrite Nat.add_0_r. reflexivity.
    - cbn [for_]. unfold body at 1. unfold CS at 1.
      destruct (@UpdateCoefsp_ok t ip (mm ⊘ prec) v0 sm sv (fst F0) inn Hsv k gn0 rh0) as (g3 & r3 & E3); [lia|].
      rewrite E3. cbn [bind]. 
      pose proof (@accump_ok t ip (mm ⊘ prec) v0 sm sv (fst F0) inn Hsv (S k) g3 r3 (pacc time dt y yerr p om b SV t ip (mm ⊘ prec) v0 (S k) a0) ltac:(lia)) as Ha.
      replace (ip + S k) with (S ip + k) in Ha by lia. rewrite Ha. cbn [bind]. clear Ha.
      destruct (IH (S k) g3 r3) as (g4 & r4 & E4); [lia|]. exists g4, r4.
      replace (k + S j) with (S k + j) by lia. rewrite <- E4. replace (S (S ip + k)) with (S ip + S k) by lia. reflexivity. }
  destruct (Hloop (n - S ip) 0 g2 r2) as (g5 & r5 & E5); [lia|]. rewrite Nat.add_0_r in E5. cbn [Nat.add] in E5.
  replace (S (n - S ip)) with (n - ip) in E5 by lia.
  change (pacc time dt y yerr p om b SV t ip (mm ⊘ prec) v0 1 a0) with (PA 0 a0) in E5.
  rewrite E5. cbn [bind]. clear E5.
  destruct (pacc time dt y yerr p om b SV t ip (mm ⊘ prec) v0 (n - ip) a0) as [mm' pp'].
  eexists. split; [reflexivity|]. split; [reflexivity|]. split.
  - destruct Hwf as (H1 & H2 & H3 & H4 & H5 & H6). unfold wf, CS, cstatep; cbn [k_time k_dt k_y k_yerr k_mean k_var].
    unfold n, time in *. rewrite filled_length by lia. repeat split; assumption || lia.
  - unfold CS, cstatep. eapply good_mk; [exact HF0|reflexivity].
Qed.
End Run.

(** Reset fails exactly as [resetp] says *)
Lemma Resetp_fail (s : kfp A) : goodp s -> (forall J, resetp (setup_of par_of s) <> Ok J) ->
  exists e, Resetp solve s = Throw e /\ resetp (setup_of par_of s) = Throw e.
Proof.
  intros Hg H. unfold resetp, Resetp in *. cbn [setup_of s_par par_of fst snd] in *.
  destruct (length (x_omega (k_ext s)) <? 2); [exists Elogic; auto|].
  destruct (solve _ _) as [J|]; [|exists Eruntime; auto].
  destruct (length (x_ma (k_ext s)) =? length (x_omega (k_ext s))) eqn:E; cbn [negb].
  - exfalso. apply (H J). reflexivity.
  - exists Elogic. auto.
Qed.

Lemma resetp_cases u : (exists J, resetp u = Ok J) \/ (exists e, resetp u = Throw e).
Proof.
  unfold resetp. destruct (_ <? 2); [right; eauto|]. destruct (solve _ _); [|right; eauto].
  destruct (_ =? _); [left|right]; eauto.
Qed.

Lemma usable_wf' X (s : kf A X) : usable s -> wf s.
Proof.
  intros (H1 & H2 & H3 & H4 & H5 & H6). unfold wf. rewrite H2, diffs_len. repeat split; try assumption. lia.
Qed.

Lemma setup_usable X P (pr : X -> P) (s s' : kf A X) : usable s -> setup_of pr s' = setup_of pr s -> wf s' -> usable s'.
Proof.
  intros (H1 & H2 & H3 & H4 & H5 & H6) E (W1 & W2 & W3 & W4 & W5 & W6).
  injection E as E1 E2 E3 E4 E5 E6. unfold usable. rewrite W5, W6, E1, E2, E3, E4. repeat split; try assumption.
Qed.

Lemma pureFp : pureF par_of (methodsp solve) goodp pfp.
Proof.
  intros s Hu Hg. pose proof (usable_wf' Hu) as Hwf.
  destruct (resetp_cases (setup_of par_of s)) as [[J HJ]|[e He]].
  - destruct (Filterp_ok Hwf Hg HJ) as (gn & rh & E). rewrite E.
    destruct Hu as (H1 & H2 & H3 & H4 & H5 & H6). split.
    + unfold pfp. rewrite HJ. cbn [bind].
      unfold fstatep, obs_filter. cbn [k_mean k_var setup_of s_dt s_y s_yerr s_sig s_par s_time par_of fst snd].
      f_equal. f_equal; [rewrite <- H5|rewrite <- H6]; apply filled_full.
    + intros s' Es. injection Es as <-. split; [reflexivity|]. split.
      * eapply (@setup_usable _ _ (@par_of)); [unfold usable; repeat split; eassumption|reflexivity|]. apply fstatep_wf; [exact Hwf|lia].
      * unfold fstatep. eapply good_mk; [|reflexivity]. apply fst_fcorep_len.
  - destruct (Resetp_fail Hg) as (e' & E1 & E2); [intros J; rewrite He; discriminate|].
    unfold Filter. cbn [m_Reset methodsp]. rewrite E1. cbn [bind obs_filter]. unfold pfp. rewrite E2. split; [reflexivity|discriminate].
Qed.

Lemma purePp : pureP par_of (methodsp solve) goodp ppp.
Proof.
  intros s t Hu Hg. pose proof (usable_wf' Hu) as Hwf. cbn [m_Predict methodsp].
  destruct (resetp_cases (setup_of par_of s)) as [[J HJ]|[e He]].
  - destruct (Predictp_ok Hwf Hg HJ t) as (s' & E & Hs & Hw & Hg'). rewrite E. split.
    + unfold ppp. rewrite HJ. reflexivity.
    + intros r s1 Es. injection Es as <- <-. split; [exact Hs|]. split; [|exact Hg'].
      eapply setup_usable; eassumption.
  - destruct (Resetp_fail Hg) as (e' & E1 & E2); [intros J; rewrite He; discriminate|].
    unfold Predictp. rewrite (ipredict_wf t Hwf). cbn [bind]. rewrite E1. cbn [bind obs_fst]. unfold ppp. rewrite E2. split; [reflexivity|discriminate].
Qed.

Lemma good_datap : forall s t d y e m v sg c a b, goodp s -> goodp (mkKF A t d y e m v sg c a b (k_ext s)).
Proof. intros; assumption. Qed.

Lemma good_set om' ma' (s : kfp A) : goodp (setparp s (om', ma')).
Proof.
  unfold goodp, dims_ok, setparp, SetMAp, SetOmegap, set_ext, czeros, mzeros. cbn [fst snd k_ext x_state x_omega x_SV].
  rewrite repeat_length, Nat.eqb_refl. unfold is_mat. rewrite repeat_length, Nat.eqb_refl. cbn [andb].
  apply forallb_forall. intros r Hr. apply repeat_spec in Hr. subst r. unfold czeros. rewrite repeat_length. apply Nat.eqb_refl.
Qed.

Lemma setpar_okp : forall s q, usable s -> goodp s ->
  usable (setparp s q) /\ goodp (setparp s q) /\ setup_of par_of (setparp s q) = spec_call (CSetPar A q) (setup_of par_of s).
Proof. intros s [om' ma'] Hu Hg. split; [exact Hu|]. split; [apply good_set|reflexivity]. Qed.
End Gen.
