(** The parameter classes inside the MCMC engine: every method keeps the object well formed and its data unchanged,
    and none makes an invalid access. *)
From Coq Require Import List Arith ZArith Bool String Lia.
From Verif Require Import Arith Res ListLemmas KFModel History KF1X Cx KFpModel KFpProof CarpackModel LogLikProof.
From Verif Require Import EngineModel StartModel EngineSpec EngineProof EngineInv.
Import ListNotations.

Set Implicit Arguments.
Unset Strict Implicit.

Ltac safe1 := match goal with
  | |- safe (bind _ _) => apply safe_bind; [|intros]
  | |- safe (vget _ _) => apply safe_vget
  | |- safe (Ok _) => discriminate
  | |- safe (Throw _) => discriminate
  | |- safe (for_ _ _ _ _) => apply safe_for; intros
  | |- safe (vset _ _ _) => unfold vset
  | |- safe (idxm1 _) => unfold idxm1
  | |- safe (if ?b then _ else _) => destruct b
  | |- safe (match ?x with _ => _ end) => destruct x
  | |- safe (let (_, _) := ?x in _) => destruct x
  end.
Ltac safes := repeat (safe1; cbv beta zeta).

Section Cls.
Variable A : Arith.
Local Notation F := (F A).
Local Notation vec := (list F).

(** ** Safety of the pieces *)
Lemma safe_Filter X (M : methods A X) s : (forall s, safe (m_Reset M s)) -> (forall s, safe (m_Update M s)) -> safe (Filter M s).
Proof. intros H1 H2. unfold Filter. apply safe_bind; [apply H1|]. intros s1 _. apply safe_for. intros; apply H2. Qed.
Lemma safe_Filter1 (s : kf1 A) : safe (Filter (methods1 A) s).
Proof.
  apply safe_Filter; intros s0; cbn [m_Reset m_Update methods1].
  - unfold Reset1. safes.
  - unfold Update1. cbv zeta. safes.
Qed.
Variable solve : list (list (cx A)) -> list (cx A) -> option (list (cx A)).
Lemma safe_Filterp (s : kfp A) : safe (Filter (methodsp solve) s).
Proof.
  apply safe_Filter; intros s0; cbn [m_Reset m_Update methodsp].
  - unfold Resetp. cbv zeta. safes.
  - unfold Updatep. cbv zeta. safes.
Qed.

Section LDsafe.
Variables X Om : Type.
Variable C : cls A X Om.
Hypothesis S1 : forall s, safe (Filter (v_meth C) s).
Hypothesis S2 : forall b th, safe (v_Check C b th).
Hypothesis S3 : forall th, safe (v_AR C th).
Hypothesis S4 : forall th, safe (v_MA C th).
Hypothesis S5 : forall th, safe (v_Sig C th).
Hypothesis S6 : forall th, safe (v_Prior C th).
Lemma safe_LogDensity b th : safe (LogDensity C b th).
Proof.
  unfold LogDensity. cbv zeta. apply safe_bind; [apply S2|]. intros ok _. destruct (negb ok); [discriminate|].
  apply safe_bind; [apply S3|]. intros om _. apply safe_bind; [apply S4|]. intros ma _.
  apply safe_bind; [apply S5|]. intros sig _. apply safe_bind; [apply safe_vget|]. intros sc _.
  apply safe_bind; [apply safe_vget|]. intros mu _. pose proof (@S1 (load C b sig om ma sc mu)) as H.
  destruct (Filter _ _) as [s'|[|]| |]; try discriminate; [|exfalso; apply H; reflexivity]. unfold loglik. apply safe_bind; [safes|].
  intros ll _. apply safe_bind; [apply S6|]. intros; discriminate.
Qed.
Lemma safe_base_save b v : safe (base_save C b v).
Proof. unfold base_save, loglik. apply safe_bind; [safes|]. intros mu _. apply safe_bind; [safes|]. intros ll _. apply safe_bind; [apply S6|]. intros; discriminate. Qed.
End LDsafe.

Lemma safe_quad_loop theta k : forall off, safe (quad_loop A theta off k).
Proof. induction k as [|k IH]; intros off; cbn [quad_loop]; [discriminate|]. safes. apply IH. Qed.
Lemma safe_quad_roots theta off n : safe (quad_roots A theta off n).
Proof. unfold quad_roots. apply safe_bind; [apply safe_quad_loop|]. intros r _. safes. Qed.
Lemma safe_Check1 b th : safe (@CheckPriorBounds1 A b th).
Proof. unfold CheckPriorBounds1. cbv zeta. safes. Qed.
Lemma safe_Checkp p b th : safe (@CheckPriorBoundsp A p b th).
Proof. unfold CheckPriorBoundsp. cbv zeta. destruct (ignore_prior b); [discriminate|]. safes. unfold ARRoots. apply safe_quad_roots. Qed.
Lemma safe_LogPrior th : safe (LogPrior A th).
Proof. unfold LogPrior. safes. Qed.
Lemma safe_LogPrior_z p th : safe (LogPrior_z A p th).
Proof. unfold LogPrior_z. safes. Qed.
Lemma safe_Sigp p maf th : (forall th, safe (maf th)) -> safe (Sigp A p maf th).
Proof. intros H. unfold Sigp. apply safe_bind; [unfold ARRoots; apply safe_quad_roots|]. intros r _. apply safe_bind; [apply H|]. intros m _. safes. Qed.
Lemma safe_MA_carma p q th : safe (ExtractMA_carma A p q th).
Proof. unfold ExtractMA_carma, ma_fill. cbv zeta. apply safe_bind; [apply safe_quad_roots|]. intros r _. safes. Qed.
Lemma safe_MA_zcarma p kl kh th : safe (@ExtractMA_zcarma A p kl kh th).
Proof. unfold ExtractMA_zcarma, belcher. safes. Qed.

Lemma safe_LD1 b th : safe (LogDensity (car1_cls A) b th).
Proof.
  apply safe_LogDensity; cbn [v_meth v_Check v_AR v_MA v_Sig v_Prior car1_cls]; intros;
    [apply safe_Filter1|apply safe_Check1|safes|safes|safes|apply safe_LogPrior].
Qed.
Lemma safe_save1 b th : safe (base_save (car1_cls A) b th).
Proof. apply safe_base_save. intros; cbn. apply safe_LogPrior. Qed.
Lemma safe_LDp p maf prior b th : (forall th, safe (maf th)) -> (forall th, safe (prior th)) -> safe (LogDensity (pcls solve p maf prior) b th).
Proof.
  intros H1 H2. apply safe_LogDensity; cbn [v_meth v_Check v_AR v_MA v_Sig v_Prior pcls]; intros;
    [apply safe_Filterp|apply safe_Checkp|apply safe_quad_roots|apply H1|apply safe_Sigp, H1|apply H2].
Qed.

(** ** Constructors and statistics *)
Lemma safe_velem T (l : list T) idx : safe (velem l idx).
Proof. induction idx as [|i r IH]; cbn [velem]; [discriminate|]. safes. exact IH. Qed.
Lemma safe_make_dt (t : vec) : safe (make_dt A t).
Proof. unfold make_dt. safes. Qed.
Lemma safe_vmin (t : vec) : safe (vmin A t).
Proof. unfold vmin. safes. Qed.
Lemma safe_vmax (t : vec) : safe (vmax A t).
Proof. unfold vmax. safes. Qed.
Lemma safe_vvar (t : vec) : safe (vvar A t).
Proof. unfold vvar. destruct t as [|a [|b r]]; discriminate. Qed.
Lemma safe_vmedian vsort (t : vec) : safe (vmedian A vsort t).
Proof. unfold vmedian. destruct t; [discriminate|]. safes. Qed.
Lemma safe_kf_new X si (raw : kf A X) t y e : safe (kf_new si raw t y e).
Proof.
  unfold kf_new, kf_init. cbv zeta.
  repeat first [apply safe_make_dt|apply safe_vmin|apply safe_velem|safe1; cbv beta zeta].
Qed.
Lemma safe_make_bounds t sd ign : safe (make_bounds A t sd ign).
Proof. unfold make_bounds. repeat first [apply safe_make_dt|apply safe_vmin|apply safe_vmax|safe1; cbv beta zeta]. Qed.
Lemma safe_base_new X si (raw : kf A X) t y e : safe (base_new si raw t y e).
Proof. unfold base_new. repeat first [apply safe_vvar|apply safe_make_bounds|apply safe_kf_new|safe1; cbv beta zeta]. Qed.
Lemma safe_carp_new si (raw : kfp A) p t y e : safe (carp_new si raw p t y e).
Proof. unfold carp_new. repeat first [apply safe_base_new|safe1; cbv beta zeta]. Qed.
Lemma safe_zcar_new si (raw : kfp A) p t y e : safe (zcar_new si raw p t y e).
Proof. unfold zcar_new, belcher. repeat first [apply safe_carp_new|apply safe_make_dt|apply safe_vmin|safe1; cbv beta zeta]. Qed.
Lemma safe_SetPrior X (b : base A X) sd : safe (SetPrior b sd).
Proof. unfold SetPrior. repeat first [apply safe_make_bounds|safe1; cbv beta zeta]. Qed.

(** ** The classes as parameters *)
Variable R : rng A.
Variables vsort dsort : vec -> option vec.

(** the object after construction, with [st] its data *)
Definition okb {X} (st : static A) (b : base A X) : Prop := wfb b /\ static_of b = st.

Lemma set_filter_ok X Om Par (C : cls A X Om) (par : X -> Par) topar good pf :
  pureF par (v_meth C) good pf ->
  (forall s t d y e m v sg c a b, good s -> good (mkKF A t d y e m v sg c a b (k_ext s))) ->
  (forall s om ma, usable s ->
    usable (v_SetMA C (v_SetOmega C s om) ma) /\ good (v_SetMA C (v_SetOmega C s om) ma) /\
    setup_of par (v_SetMA C (v_SetOmega C s om) ma) = spec_call (CSetPar A (topar om ma)) (setup_of par s)) ->
  forall st b sig om ma scale mu s', okb st b -> Filter (v_meth C) (load C b sig om ma scale mu) = Ok s' -> okb st (set_kf b s').
Proof.
  intros HF Hd Hs st b sig om ma scale mu s' [Hw Est] E.
  destruct (@load_ok _ _ _ _ C par topar good Hd Hs b sig om ma scale mu Hw) as (Hu & Hg & Ese).
  destruct (HF _ Hu Hg) as [_ H]. destruct (H _ E) as (Es & Hu' & _).
  assert (k_time s' = k_time (b_kf b)) as Et.
  { transitivity (s_time (setup_of par (load C b sig om ma scale mu))); [exact (f_equal (@s_time _ _) Es)|exact (f_equal (@s_time _ _) Ese)]. }
  destruct Hw as (_ & W). split.
  - unfold wfb, set_kf; cbn. rewrite Et. split; [exact Hu'|exact W].
  - rewrite <- Est. unfold static_of, set_kf; cbn. rewrite Et. reflexivity.
Qed.

(** CAR1 *)
Lemma set_filter1_ok st b om sig scale mu b' : okb st b -> set_filter1 b om sig scale mu = Ok b' -> okb st b'.
Proof.
  intros H E. unfold set_filter1 in E. apply bind_Ok in E. destruct E as (s & E & Q). injection Q as <-.
  exact (@set_filter_ok _ _ _ (car1_cls A) (fun x => x) (fun om (_ : vec) => om) (@good1 A) (@pf1 A) (pureF1 A) (@good_data1 A) (@Hset1 A)
    st b sig om [] scale mu s H E).
Qed.
Lemma LD1_ok st b v l b' : okb st b -> LogDensity (car1_cls A) b v = Ok (l, b') ->
  pLD (car1_cls A) (fun om (_ : vec) => om) (@pf1 A) st v = Ok l /\ okb st b'.
Proof.
  intros [Hw <-] E. destruct (@LD_pure1 A b v Hw) as [H1 H2]. rewrite E in H1. split; [symmetry; exact H1|].
  destruct (H2 _ _ E) as [H3 H4]. split; [exact H4|exact H3].
Qed.
Lemma Start1_ok st b g v b' g' : okb st b -> Start1 (R := R) vsort b g = Ok (v, b', g') -> okb st b'.
Proof.
  intros H E. unfold Start1 in E. apply bind_Ok in E. destruct E as (vv & _ & E). destruct (scaled_inverse_chisqr _ _ _) as [sd2 g1].
  destruct (rnorm _ _ _) as [mu g2]. apply bind_Ok in E. destruct E as (dt & _ & E). apply bind_Ok in E. destruct E as (med & _ & E).
  destruct (runiform _ _ _) as [u g3]. destruct (draw_scale _) as [sc g4]. apply bind_Ok in E. destruct E as (b1 & E & Q).
  injection Q as _ <- _. exact (set_filter1_ok H E).
Qed.
Lemma SetStart1_ok st b i g v b' g' : okb st b -> SetStart1 (R := R) vsort b i g = Ok (v, b', g') -> okb st b'.
Proof.
  intros H E. unfold SetStart1 in E. destruct (negb (_ =? _)); [exact (Start1_ok H E)|].
  apply bind_Ok in E. destruct E as ([lp b1] & EL & E). destruct (LD1_ok H EL) as [_ H1].
  destruct (negb _); [exact (Start1_ok H1 E)|]. apply bind_Ok in E. destruct E as (sd & _ & E). apply bind_Ok in E. destruct E as (sc & _ & E).
  apply bind_Ok in E. destruct E as (mu & _ & E). apply bind_Ok in E. destruct E as (lo & _ & E). apply bind_Ok in E. destruct E as (b2 & E & Q).
  injection Q as _ <- _. exact (set_filter1_ok H1 E).
Qed.
Lemma safe_set_filter1 b om sig scale mu : safe (@set_filter1 A b om sig scale mu).
Proof. unfold set_filter1. apply safe_bind; [apply safe_Filter1|]. intros; discriminate. Qed.
Lemma safe_Start1 b g : safe (Start1 (R := R) vsort b g).
Proof.
  unfold Start1. cbv zeta. repeat first [apply safe_vvar|apply safe_make_dt|apply safe_vmedian|apply safe_set_filter1|safe1; cbv beta zeta].
Qed.
Lemma safe_SetStart1 b i g : safe (SetStart1 (R := R) vsort b i g).
Proof.
  unfold SetStart1. destruct (Nat.eqb_spec (List.length i) 4) as [Hl|_]; cbn [negb]; [|apply safe_Start1].
  apply safe_bind; [apply safe_LD1|]. intros [lp b1] _. destruct (negb _); [apply safe_Start1|].
  repeat (apply safe_bind; [apply safe_vgetU; lia|intros ? _]). apply safe_bind; [apply safe_set_filter1|]. intros; discriminate.
Qed.

(** CARp, ZCAR, CARMA, ZCARMA *)
Section P.
Variable p : nat.
Variable maf : vec -> res vec.
Variable prior : vec -> res F.
Local Notation C := (pcls solve p maf prior).
Variable extra : gen R -> vec * gen R.
Variables early withma : bool.
Variables len fuel : nat.
Local Notation pl := (fun st v => pLD C (fun om (ma : vec) => (om, ma)) (@pfp A solve) st v).

Lemma set_filterp_ok st b sig om ma scale mu b' : okb st b -> set_filterp solve b sig om ma scale mu = Ok b' -> okb st b'.
Proof.
  intros H E. unfold set_filterp in E. cbv zeta in E. apply bind_Ok in E. destruct E as (s & E & Q). injection Q as <-.
  set (m := match ma with Some m => m | None => x_ma (k_ext (b_kf b)) end).
  apply (@set_filter_ok _ _ _ C (@par_of A) (fun om ma => (om, ma)) (@goodp A) (@pfp A solve) (pureFp solve) (@good_datap A)
    (@Hsetp A solve p maf prior) st b sig om m scale mu s H).
  rewrite <- E. subst m. destruct ma as [m|]; reflexivity.
Qed.
Lemma LDp_ok st b v l b' : okb st b -> LogDensity C b v = Ok (l, b') -> pl st v = Ok l /\ okb st b'.
Proof.
  intros [Hw <-] E. destruct (@LD_purep A solve p maf prior b v Hw) as [H1 H2]. rewrite E in H1. split; [symmetry; exact H1|].
  destruct (H2 _ _ E) as [H3 H4]. split; [exact H4|exact H3].
Qed.
Lemma start_try_ok st b g th b' ok g' : okb st b -> start_try dsort solve p C extra early withma b g = Ok (th, b', ok, g') ->
  okb st b' /\ (ok = true -> exists l, pl st th = Ok l /\ ffin A l = true).
Proof.
  intros H E. unfold start_try in E. apply bind_Ok in E. destruct E as ([loga g1] & _ & E). destruct (extra g1) as [ex g2].
  apply bind_Ok in E. destruct E as (ma & _ & E). apply bind_Ok in E. destruct E as (v & _ & E).
  destruct (scaled_inverse_chisqr _ _ _) as [yv g3]. destruct (rnorm _ _ _) as [mu g4]. apply bind_Ok in E. destruct E as (roots & _ & E).
  destruct (early && _).
  { injection E as <- <- <- <-. split; [exact H|discriminate]. }
  destruct (draw_scale _) as [sc g5]. apply bind_Ok in E. destruct E as (b1 & E1 & E). apply bind_Ok in E. destruct E as ([lp b2] & E2 & E).
  injection E as <- <- <- <-. pose proof (set_filterp_ok H E1) as H1. destruct (LDp_ok H1 E2) as [H2 H3].
  split; [exact H3|]. intros Hf. exists lp. split; assumption.
Qed.
Lemma start_while_ok st n : forall b g th b' g', okb st b -> start_while dsort solve p C extra early withma n b g = Ok (th, b', g') ->
  okb st b' /\ exists l, pl st th = Ok l /\ ffin A l = true.
Proof.
  induction n as [|n IH]; intros b g th b' g' H E; cbn [start_while] in E; [discriminate|].
  apply bind_Ok in E. destruct E as ([[[th1 b1] ok] g1] & E1 & E). destruct (start_try_ok H E1) as [H1 H2]. destruct ok.
  - injection E as <- <- <-. split; [exact H1|apply H2; reflexivity].
  - exact (IH _ _ _ _ _ H1 E).
Qed.
Lemma set_start_ok st b i g th b' g' : okb st b -> set_start dsort solve p C extra early withma len fuel b i g = Ok (th, b', g') ->
  okb st b' /\ exists l, pl st th = Ok l /\ ffin A l = true.
Proof.
  intros H E. unfold set_start in E. destruct (negb (_ =? _)); [exact (start_while_ok H E)|].
  apply bind_Ok in E. destruct E as ([lp b1] & EL & E). destruct (LDp_ok H EL) as [Hp H1].
  destruct (ffin A lp) eqn:Ef; cbn [negb] in E; [|exact (start_while_ok H1 E)].
  apply bind_Ok in E. destruct E as (t0 & _ & E). apply bind_Ok in E. destruct E as (sc & _ & E).
  apply bind_Ok in E. destruct E as (mu & _ & E). apply bind_Ok in E. destruct E as (roots & _ & E).
  apply bind_Ok in E. destruct E as (ma & _ & E). apply bind_Ok in E. destruct E as (b2 & E & Q).
  injection Q as <- <- <-. split; [exact (set_filterp_ok H1 E)|]. exists lp. split; assumption.
Qed.

Hypothesis Sma : forall th, safe (maf th).
Hypothesis Spr : forall th, safe (prior th).
Lemma safe_StartingAR b g : safe (@StartingAR A R dsort p b g).
Proof. unfold StartingAR. cbv zeta. repeat first [apply safe_vmin|apply safe_vmax|safe1; cbv beta zeta]. Qed.
Lemma safe_set_filterp b sig om ma scale mu : safe (set_filterp solve b sig om ma scale mu).
Proof. unfold set_filterp. cbv zeta. apply safe_bind; [apply safe_Filterp|]. intros; discriminate. Qed.
Lemma safe_start_try b g : safe (start_try dsort solve p C extra early withma b g).
Proof.
  unfold start_try. cbv zeta.
  repeat first [apply safe_StartingAR|apply Sma|apply safe_vvar|apply safe_quad_roots|apply safe_set_filterp|apply (safe_LDp p b Sma Spr)|apply safe_LDp; assumption|safe1; cbv beta zeta].
Qed.
Lemma safe_start_while n : forall b g, safe (start_while dsort solve p C extra early withma n b g).
Proof.
  induction n as [|n IH]; intros b g; cbn [start_while]; [discriminate|]. apply safe_bind; [apply safe_start_try|].
  intros [[[th b'] ok] g'] _. destruct ok; [discriminate|apply IH].
Qed.
Lemma safe_set_start b i g : safe (set_start dsort solve p C extra early withma len fuel b i g).
Proof.
  unfold set_start. cbv zeta.
  repeat first [apply safe_start_while|apply Sma|apply safe_quad_roots|apply safe_set_filterp|apply safe_LDp; assumption|safe1; cbv beta zeta].
Qed.
End P.
End Cls.
