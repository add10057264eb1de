(** Totality of the model classes: with parameter vectors of the right length nothing throws but a failed
    arma::solve. *)
From Coq Require Import List Arith ZArith Bool String Lia.
From Verif Require Import Arith Res ListLemmas KFModel KF1Proof History KF1X Cx KFpModel KFpProof CarpackModel LogLikProof KFpTop CarpackTop.
From Verif Require Import EngineModel StartModel EngineSpec EngineProof EngineInv EngineHist EngineClass EngineDriver EngineTop TotalProof.
Import ListNotations.

Set Implicit Arguments.
Unset Strict Implicit.

Section Cls.
Variable A : Arith.
Local Notation F := (F A).
Local Notation vec := (list F).
Local Notation "# z" := (fofZ A z) (at level 5).
Variable d er : Prop.

Lemma wp_True T (Q : T -> Prop) r : wp d er Q r -> wp d er (fun _ => True) r.
Proof. intros H. eapply wp_mono; [exact H|trivial]. Qed.

(** ** Roots and moving average coefficients *)
Lemma quad_loop_wp theta k : forall off, off + 2 * k <= List.length theta -> wp d er (fun r => List.length r = 2 * k) (quad_loop A theta off k).
Proof.
  induction k as [|k IH]; intros off H; cbn [quad_loop]; [reflexivity|].
  eapply wp_bind; [apply wp_vget; lia|]. intros t1 _. eapply wp_bind; [apply wp_vget; lia|]. intros t2 _.
  eapply wp_bind; [apply (IH (off + 2)); lia|]. intros r Hr. cbn [wp]. rewrite app_length, Hr. unfold quad_pair. destruct (flt A _ _); cbn; lia.
Qed.
Lemma quad_roots_wp theta off n : off + n <= List.length theta -> wp d er (fun r => List.length r = n) (quad_roots A theta off n).
Proof.
  intros H. unfold quad_roots. pose proof (Nat.div_mod n 2 ltac:(lia)) as Hd. pose proof (Nat.mod_upper_bound n 2 ltac:(lia)) as Hm.
  eapply wp_bind; [apply quad_loop_wp; lia|]. intros r Hr. cbv beta in Hr. destruct (Nat.odd n) eqn:Eo.
  - rewrite <- Nat.bit0_odd, Nat.bit0_eqb in Eo. apply Nat.eqb_eq in Eo. eapply wp_bind; [apply wp_vget; lia|]. intros t _. cbn [wp].
    rewrite app_length, Hr. cbn [List.length]. lia.
  - rewrite <- Nat.bit0_odd, Nat.bit0_eqb in Eo. apply Nat.eqb_neq in Eo. cbn [wp]. lia.
Qed.
Lemma poly_loop_len (roots : list (cx A)) : forall i coefs, List.length (poly_loop roots i coefs) = List.length coefs.
Proof.
  induction roots as [|r roots IH]; intros i coefs; cbn [poly_loop]; [reflexivity|]. rewrite IH. unfold poly_step. apply vbuild_len.
Qed.
Lemma polycoefs_len (roots : list (cx A)) : List.length (polycoefs roots) = S (List.length roots).
Proof. unfold polycoefs. rewrite map_length, poly_loop_len. cbn. rewrite repeat_length. reflexivity. Qed.
Lemma ma_carma_wp p q theta : q < p -> 3 + p + q <= List.length theta -> wp d er (fun m => List.length m = p) (ExtractMA_carma A p q theta).
Proof.
  intros Hq Hl. unfold ExtractMA_carma. eapply wp_bind; [apply quad_roots_wp; lia|]. intros roots Hr. cbv beta in Hr. cbv zeta.
  eapply wp_bind; [apply wp_vget; rewrite polycoefs_len; lia|]. intros dn _. unfold ma_fill.
  apply wp_for; [|unfold zeros; apply repeat_length]. intros i s Hi Hs.
  eapply wp_bind; [apply wp_vget; rewrite map_length, polycoefs_len; lia|]. intros c _. eapply wp_mono; [apply wp_vset; lia|]. intros l' H'; cbv beta in H'. congruence.
Qed.
Lemma carp_ma_len p : List.length (carp_ma A p) = p.
Proof. unfold carp_ma. rewrite upd_length. apply repeat_length. Qed.
Lemma belcher_wp p k : p <> 0 -> wp d er (fun m => List.length m = p) (@belcher A p k).
Proof. intros H. unfold belcher. destruct (Nat.eqb_spec p 0); [contradiction|]. cbn. apply vbuild_len. Qed.
Lemma ma_zcarma_wp p kl kh theta : p <> 0 -> 4 + p <= List.length theta -> wp d er (fun m => List.length m = p) (@ExtractMA_zcarma A p kl kh theta).
Proof. intros Hp Hl. unfold ExtractMA_zcarma. eapply wp_bind; [apply wp_vget; lia|]. intros t _. apply belcher_wp, Hp. Qed.

(** ** The log-density *)
Lemma lik_wp n (y m v : vec) mu : n <= List.length y -> n <= List.length m -> n <= List.length v -> wp d er (fun _ => True) (lik A n y m v mu).
Proof.
  intros H1 H2 H3. unfold lik. apply wp_for; [|exact I]. intros i s Hi _.
  eapply wp_bind; [apply wp_vget; lia|]. intros yi _. eapply wp_bind; [apply wp_vget; lia|]. intros mi _. eapply wp_bind; [apply wp_vget; lia|]. intros vi _. exact I.
Qed.
Lemma LogPrior_wp th : 2 <= List.length th -> wp d er (fun _ => True) (LogPrior A th).
Proof. intros H. unfold LogPrior. eapply wp_bind; [apply wp_vget; lia|]. intros s _. exact I. Qed.
Lemma LogPrior_z_wp p th : 4 + p <= List.length th -> wp d er (fun _ => True) (LogPrior_z A p th).
Proof. intros H. unfold LogPrior_z. eapply wp_bind; [apply wp_vget; lia|]. intros s _. eapply wp_bind; [apply wp_vget; lia|]. intros x _. exact I. Qed.

Lemma LD1_wp st b th : okb st b -> List.length th = 4 -> wp d er (fun q => okb st (snd q)) (LogDensity (car1_cls A) b th).
Proof.
  intros Hb Hl. enough (wp d er (fun _ => True) (LogDensity (car1_cls A) b th)) as H.
  { destruct (LogDensity (car1_cls A) b th) as [[l b']| | |] eqn:E; try exact H. exact (proj2 (LD1_ok Hb E)). }
  destruct th as [|a [|c [|m [|o [|? ?]]]]]; try discriminate. unfold LogDensity.
  cbn [v_Check v_AR v_MA v_Sig v_Prior v_meth car1_cls CheckPriorBounds1 vget nth_error bind]. destruct (negb _) in |- *; [exact I|].
  destruct Hb as [Hw Es].
  destruct (@load_ok _ _ _ _ (car1_cls A) (fun x => x) (fun om (_ : vec) => om) (@good1 A) (@good_data1 A) (@Hset1 A) b
              (fmul A (fmul A (fmul A (#2) a) a) (fexp A o)) (fexp A o) (zeros A 1) c m Hw) as (Hu & Hg & Ese).
  cbv zeta. rewrite (Filter1_ok (usable_wf' Hu)). match goal with |- context [loglik b ?s m] => set (s' := s) end.
  destruct (pureF1 A _ Hu Hg) as [_ Hp]. destruct (Hp _ (Filter1_ok (usable_wf' Hu))) as (Hs' & Hu' & _). fold s' in Hs', Hu'.
  change (loglik b s' m) with (lik A (List.length (b_time b)) (b_y b) (k_mean s') (k_var s') m).
  assert (k_time s' = k_time (b_kf b)) as Et.
  { transitivity (s_time (setup_of (fun x => x) s')); [reflexivity|]. rewrite Hs', Ese. reflexivity. }
  destruct Hu' as (_ & _ & _ & _ & Hm & Hv). destruct Hw as (_ & Wt & Wy & _). rewrite Et in Hm, Hv.
  eapply wp_bind; [apply lik_wp; lia|]. intros ll _. exact I.
Qed.
Lemma save1_wp st b th : okb st b -> List.length th = 4 -> wp d er (fun _ => True) (base_save (car1_cls A) b th).
Proof.
  intros [Hw Es] Hl. unfold base_save. eapply wp_bind; [apply wp_vget; lia|]. intros mu _.
  change (loglik b (b_kf b) mu) with (lik A (List.length (b_time b)) (b_y b) (k_mean (b_kf b)) (k_var (b_kf b)) mu).
  destruct Hw as ((_ & _ & _ & _ & Hm & Hv) & Wt & Wy & _). eapply wp_bind; [apply lik_wp; lia|]. intros ll _.
  eapply wp_bind; [apply LogPrior_wp; lia|]. intros pr _. exact I.
Qed.

Lemma vvar_wp (l : vec) : 1 <= List.length l -> wp d er (fun _ => True) (vvar A l).
Proof. destruct l as [|a [|c l]]; cbn; [lia|trivial|trivial]. Qed.

Section P.
Variable solve : list (list (cx A)) -> list (cx A) -> option (list (cx A)).
Variable p len : nat.
Variable maf : vec -> res vec.
Variable prior : vec -> res F.
Local Notation C := (pcls solve p maf prior).
Hypothesis Hp : 2 <= p.
Hypothesis Hlen : 3 + p <= len.
Hypothesis Hma : forall th, List.length th = len -> wp d er (fun m => List.length m = p) (maf th).
Hypothesis Hpr : forall th, List.length th = len -> wp d er (fun _ => True) (prior th).
Definition okt (st : static A) (b : base A (kpx A)) : Prop := okb st b /\ List.length (x_ma (k_ext (b_kf b))) = p.

(** Filter() after the setters: a result, or the failed solve *)
Lemma Filterp_wp (ee : Prop) st b sig om ma scale mu : ee -> okb st b -> List.length om = p -> List.length ma = p ->
  wp d ee (fun s' => okt st (set_kf b s') /\ usable s' /\ k_time s' = k_time (b_kf b)) (Filter (methodsp solve) (load C b sig om ma scale mu)).
Proof.
  intros Hee Hb Ho Hm.
  destruct (@load_ok _ _ _ _ C (@par_of A) (fun om ma => (om, ma)) (@goodp A) (@good_datap A) (@Hsetp A solve p maf prior) b sig om ma scale mu (proj1 Hb)) as (Hu & Hg & Ese).
  pose proof (@shape_ok A solve _ Hu Hg) as K.
  assert (x_omega (k_ext (load C b sig om ma scale mu)) = om) as Eo by reflexivity.
  assert (x_ma (k_ext (load C b sig om ma scale mu)) = ma) as Em by reflexivity.
  rewrite Eo, Em in K. specialize (K ltac:(lia) ltac:(lia)).
  destruct (solve _ _) as [J|]; [|destruct K as [-> _]; exact Hee]. destruct K as [[s' E] _]. rewrite E. cbn [wp].
  destruct (pureFp solve Hu Hg) as [_ Hq]. destruct (Hq _ E) as (Hs' & Hu' & _).
  assert (k_time s' = k_time (b_kf b)) as Et.
  { transitivity (s_time (setup_of (@par_of A) (load C b sig om ma scale mu))); [exact (f_equal (@s_time _ _) Hs')|exact (f_equal (@s_time _ _) Ese)]. }
  split; [split|split; assumption].
  - exact (@set_filter_ok A _ _ _ C (@par_of A) (fun om ma => (om, ma)) (@goodp A) (@pfp A solve) (pureFp solve) (@good_datap A) (@Hsetp A solve p maf prior) st b sig om ma scale mu s' Hb E).
  - cbn [set_kf b_kf]. pose proof (f_equal (@s_par _ _) Hs') as Q. cbn in Q. injection Q as _ Q. rewrite Q. exact Hm.
Qed.
Lemma Check_wp bd th : List.length th = len -> wp d er (fun _ => True) (@CheckPriorBoundsp A p bd th).
Proof.
  intros Hl. unfold CheckPriorBoundsp. destruct (ignore_prior bd); [exact I|]. eapply wp_bind; [apply wp_vget; lia|]. intros ys _.
  eapply wp_bind; [apply wp_vget; lia|]. intros sc _. eapply wp_bind; [apply quad_roots_wp; lia|]. intros r _. exact I.
Qed.
Lemma LDp_wp st b th : okt st b -> List.length th = len -> wp d er (fun q => okt st (snd q)) (LogDensity C b th).
Proof.
  intros [Hb Hm0] Hl. unfold LogDensity. eapply wp_bind; [apply Check_wp, Hl|]. intros ok _. destruct (negb ok); [split; assumption|].
  cbn [v_AR v_MA v_Sig v_Prior v_meth pcls]. eapply wp_bind; [apply quad_roots_wp; lia|]. intros om Hom. cbv beta in Hom.
  eapply wp_bind; [apply Hma, Hl|]. intros ma Hm. cbv beta in Hm.
  eapply wp_bind with (Q1 := fun _ => True).
  { unfold Sigp. eapply wp_bind; [apply quad_roots_wp; lia|]. intros r _. eapply wp_bind; [apply Hma, Hl|]. intros m _. eapply wp_bind; [apply wp_vget; lia|]. intros t _. exact I. }
  intros sig _. eapply wp_bind; [apply wp_vget; lia|]. intros sc _. eapply wp_bind; [apply wp_vget; lia|]. intros mu _. cbv zeta.
  pose proof (@Filterp_wp True st b sig om ma sc mu I Hb Hom Hm) as K. destruct (Filter _ _) as [s'|[|]| |] eqn:EF; cbn [wp] in K.
  - destruct K as (K1 & K2 & K3). change (loglik b s' mu) with (lik A (List.length (b_time b)) (b_y b) (k_mean s') (k_var s') mu).
    destruct K2 as (_ & _ & _ & _ & Hmn & Hv). destruct Hb as [(_ & Wt & Wy & _) _]. rewrite K3 in Hmn, Hv.
    eapply wp_bind; [apply lik_wp; lia|]. intros ll _. eapply wp_bind; [apply Hpr, Hl|]. intros pr _. exact K1.
  - contradiction.
  - cbn [wp snd].
    destruct (@load_ok _ _ _ _ C (@par_of A) (fun om ma => (om, ma)) (@goodp A) (@good_datap A) (@Hsetp A solve p maf prior) b sig om ma sc mu (proj1 Hb)) as (Hu & Hg & Ese).
    assert (k_time (load C b sig om ma sc mu) = k_time (b_kf b)) as Et by reflexivity. destruct Hb as [(W1 & W2) Hs]. split; [split|exact Hm].
    + unfold wfb, set_kf; cbn [b_kf b_time b_y b_yerr]. rewrite Et. split; [exact Hu|exact W2].
    + rewrite <- Hs. unfold static_of, set_kf; cbn [b_kf b_time b_y b_yerr b_bounds]. rewrite Et. reflexivity.
  - exact I.
  - exact K.
Qed.
Lemma savep_wp st b th : okt st b -> List.length th = len -> wp d er (fun _ => True) (base_save C b th).
Proof.
  intros [[Hw Es] _] Hl. unfold base_save. eapply wp_bind; [apply wp_vget; lia|]. intros mu _.
  change (loglik b (b_kf b) mu) with (lik A (List.length (b_time b)) (b_y b) (k_mean (b_kf b)) (k_var (b_kf b)) mu).
  destruct Hw as ((_ & _ & _ & _ & Hm & Hv) & Wt & Wy & _). eapply wp_bind; [apply lik_wp; lia|]. intros ll _.
  eapply wp_bind; [apply Hpr, Hl|]. intros pr _. exact I.
Qed.

(** ** Starting values *)
Variable R : rng A.
Variable dsort : vec -> option vec.
Variable U : F -> Prop.
Hypothesis HU : forall g, U (fst (a_randu R g)).
Variable st : static A.
(** sorting works on what StartingAR sorts *)
Hypothesis Hds : forall mn l, Forall U l -> List.length l = (p + 1) / 2 ->
  (hi <- vmax A (st_time st) ;; lo <- vmin A (st_time st) ;; Ok (fdiv A (#1) (fsub A hi lo))) = Ok mn ->
  exists s, dsort (map (log_grid A (max_freq (st_bounds st)) mn) l) = Some s /\ List.length s = List.length l.
Hypothesis Hn : 2 <= List.length (st_time st).

Lemma draws_U k : forall g : gen R, Forall U (fst (draws k (on_a (a_randu R)) g)).
Proof.
  induction k as [|k IH]; intros g; cbn [draws]; [constructor|]. unfold on_a at 1. specialize (HU (snd g)). destruct (a_randu R (snd g)) as [x a].
  specialize (IH (fst g, a)). destruct (draws k _ (fst g, a)) as [l g2]. cbn in *. constructor; assumption.
Qed.
Lemma StartingAR_wp b g : okb st b -> wp d er (fun q => List.length (fst q) = p) (StartingAR (R := R) dsort p b g).
Proof.
  intros [Hw Es]. unfold StartingAR.
  assert (b_time b = st_time st /\ b_bounds b = st_bounds st) as [Et Eb] by (rewrite <- Es; split; reflexivity). rewrite Et, Eb.
  assert (exists hi, vmax A (st_time st) = Ok hi) as [hi Ehi] by (destruct (st_time st); [cbn in Hn; lia|eexists; reflexivity]).
  assert (exists lo, vmin A (st_time st) = Ok lo) as [lo Elo] by (destruct (st_time st); [cbn in Hn; lia|eexists; reflexivity]).
  specialize (Hds (mn := fdiv A (#1) (fsub A hi lo))). rewrite Ehi, Elo in *. cbn [bind] in *. cbv zeta.
  pose proof (draws_U ((p + 1) / 2) g) as HU1. pose proof (draws_len ((p + 1) / 2) (on_a (a_randu R)) g) as HL1.
  destruct (draws ((p + 1) / 2) (on_a (a_randu R)) g) as [c0 g1]. cbn [fst] in HU1, HL1.
  destruct (@Hds c0 HU1 HL1 eq_refl) as (cent0 & -> & Hc0). pose proof (draws_len ((p + 1) / 2) (on_a (a_randu R)) g1) as HL2.
  destruct (draws ((p + 1) / 2) (on_a (a_randu R)) g1) as [w0 g2]. cbn [fst] in HL2.
  pose proof (Nat.div_mod p 2 ltac:(lia)) as Hd. pose proof (Nat.mod_upper_bound p 2 ltac:(lia)) as Hm.
  pose proof (Nat.div_mod (p + 1) 2 ltac:(lia)) as Hd1. pose proof (Nat.mod_upper_bound (p + 1) 2 ltac:(lia)) as Hm1.
  assert (Nat.odd p = true -> p / 2 < (p + 1) / 2) as Hodd.
  { intros Eo. rewrite <- Nat.bit0_odd, Nat.bit0_eqb in Eo. apply Nat.eqb_eq in Eo. lia. }
  eapply wp_bind with (Q1 := fun q => List.length (fst (fst q)) = (p + 1) / 2 /\ List.length (snd (fst q)) = (p + 1) / 2).
  { destruct (Nat.odd p); [|cbn [wp fst snd]; rewrite map_length; split; congruence]. specialize (Hodd eq_refl).
    eapply wp_bind; [apply wp_vset; lia|]. intros cent Hcent. cbv beta in Hcent. destruct (p / 2) as [|j] eqn:Ej; [lia|]. cbn [idxm1 bind].
    eapply wp_bind; [apply wp_vget; lia|]. intros cj _. destruct (runiform _ _ g2) as [u g3].
    eapply wp_bind; [apply wp_vset; rewrite map_length; lia|]. intros wid Hwid. cbv beta in Hwid. rewrite map_length in Hwid. cbn [wp fst snd]. split; congruence. }
  intros [[cent wid] g3] [Hcent Hwid]. cbn [fst snd] in Hcent, Hwid.
  eapply wp_bind with (Q1 := fun l => List.length l = p).
  { apply wp_for; [|unfold zeros; apply repeat_length]. intros i l Hi Hl. eapply wp_bind; [apply wp_vget; lia|]. intros w _.
    eapply wp_bind; [apply wp_vget; lia|]. intros c _. eapply wp_bind; [apply wp_vset; lia|]. intros l1 H1. cbv beta in H1.
    eapply wp_mono; [apply wp_vset; lia|]. intros l2 H2. cbv beta in H2. congruence. }
  intros loga Hla. cbv beta in Hla. eapply wp_bind with (Q1 := fun l => List.length l = p).
  { destruct (Nat.odd p); [|exact Hla]. specialize (Hodd eq_refl). eapply wp_bind; [apply wp_vget; lia|]. intros w _.
    eapply wp_mono; [apply wp_vset; lia|]. intros l2 H2. cbv beta in H2. congruence. }
  intros la' Hla'. exact Hla'.
Qed.

Variable extra : gen R -> vec * gen R.
Hypothesis Hex : forall g, List.length (fst (extra g)) + p + 3 = len.
Variables early withma : bool.
Lemma set_filterp_wp b sig om ma scale mu : er -> okt st b -> List.length om = p -> (forall m, ma = Some m -> List.length m = p) ->
  wp d er (okt st) (set_filterp solve b sig om ma scale mu).
Proof.
  intros Her [Hb Hm0] Ho Hm. unfold set_filterp. cbv zeta.
  set (m := match ma with Some m => m | None => x_ma (k_ext (b_kf b)) end).
  assert (List.length m = p) as Hml by (unfold m; destruct ma; [apply Hm; reflexivity|exact Hm0]).
  pose proof (@Filterp_wp er st b sig om m scale mu Her Hb Ho Hml) as K.
  match goal with |- wp _ _ _ (bind (Filter _ ?s) _) => assert (s = load C b sig om m scale mu) as -> by (unfold m; destruct ma; reflexivity) end.
  eapply wp_bind; [exact K|]. intros s H; exact (proj1 H).
Qed.
Lemma start_try_wp b g : er -> okt st b ->
  wp d er (fun q => okt st (snd (fst (fst q))) /\ List.length (fst (fst (fst q))) = len) (start_try dsort solve p C extra early withma b g).
Proof.
  intros Her Hb. unfold start_try. eapply wp_bind; [apply StartingAR_wp; exact (proj1 Hb)|]. intros [loga g1] Hla. cbn [fst] in Hla.
  pose proof (Hex g1) as He. destruct (extra g1) as [ex g2]. cbn [fst] in He. cbv zeta.
  assert (forall a c m : F, List.length (a :: c :: m :: loga ++ ex) = len) as Hl by (intros; cbn [List.length]; rewrite app_length; lia).
  eapply wp_bind; [apply Hma, Hl|]. intros ma Hm. cbv beta in Hm.
  assert (List.length (b_y b) = List.length (st_time st)) as Hy.
  { destruct Hb as [[(_ & W1 & W2 & _) Es] _]. rewrite <- Es. cbn. congruence. }
  eapply wp_bind; [apply vvar_wp; lia|]. intros v _. destruct (scaled_inverse_chisqr _ _ _) as [yv g3]. destruct (rnorm _ _ _) as [mu g4].
  eapply wp_bind; [apply quad_roots_wp; rewrite Hl; lia|]. intros roots Hr. cbv beta in Hr.
  destruct (early && _); [cbn [wp fst snd]; split; [exact Hb|apply Hl]|]. destruct (draw_scale _) as [sc g5].
  eapply wp_bind; [apply set_filterp_wp; [exact Her|exact Hb|exact Hr|]|].
  { intros m Q. destruct withma; [|discriminate]. injection Q as <-. exact Hm. }
  intros b1 Hb1. eapply wp_bind; [apply LDp_wp with (st := st); [exact Hb1|apply Hl]|]. intros [lp b2] Hb2. cbn [wp fst snd] in *. split; [exact Hb2|apply Hl].
Qed.
Lemma start_while_wp fuel : d -> er -> forall b g, okt st b ->
  wp d er (fun q => okt st (snd (fst q)) /\ List.length (fst (fst q)) = len) (start_while dsort solve p C extra early withma fuel b g).
Proof.
  intros Hdd Her. induction fuel as [|k IH]; intros b g Hb; cbn [start_while]; [exact Hdd|]. eapply wp_bind; [apply start_try_wp; assumption|].
  intros [[[th b'] ok] g'] [H1 H2]. cbn [fst snd] in H1, H2. destruct ok; [split; assumption|apply IH, H1].
Qed.
Lemma set_start_wp fuel b init g : d -> er -> okt st b ->
  wp d er (fun q => okt st (snd (fst q)) /\ List.length (fst (fst q)) = len) (set_start dsort solve p C extra early withma len fuel b init g).
Proof.
  intros Hdd Her Hb. unfold set_start. destruct (Nat.eqb_spec (List.length init) len) as [Hl|]; cbn [negb]; [|apply start_while_wp; assumption].
  eapply wp_bind; [apply LDp_wp with (st := st); assumption|]. intros [lp b1] H1. cbn [snd] in H1. destruct (negb _); [apply start_while_wp; assumption|].
  eapply wp_bind; [apply wp_vget; lia|]. intros t0 _. eapply wp_bind; [apply wp_vget; lia|]. intros sc _. eapply wp_bind; [apply wp_vget; lia|]. intros mu _.
  eapply wp_bind; [apply quad_roots_wp; lia|]. intros roots Hr. cbv beta in Hr. eapply wp_bind; [apply Hma, Hl|]. intros ma Hm. cbv beta in Hm. cbv zeta.
  eapply wp_bind; [apply set_filterp_wp; [exact Her|exact H1|exact Hr|]|].
  { intros m Q. destruct withma; [|discriminate]. injection Q as <-. exact Hm. }
  intros b2 H2. cbn [wp fst snd]. split; assumption.
Qed.
End P.

(** ** CAR1 starting values *)
Variable R : rng A.
Variable vsort : vec -> option vec.
Variable st : static A.
Hypothesis Hvs : exists s, vsort (diffs A (st_time st)) = Some s /\ List.length s = List.length (diffs A (st_time st)).
Lemma set_filter1_wp b om sig scale mu : okb st b -> wp d er (okb st) (set_filter1 b om sig scale mu).
Proof.
  intros Hb. unfold set_filter1.
  destruct (@load_ok _ _ _ _ (car1_cls A) (fun x => x) (fun om (_ : vec) => om) (@good1 A) (@good_data1 A) (@Hset1 A) b sig om [] scale mu (proj1 Hb)) as (Hu & Hg & Ese).
  pose proof (Filter1_ok (usable_wf' Hu)) as E.
  match goal with |- context [Filter _ ?s] => change s with (load (car1_cls A) b sig om [] scale mu) end. rewrite E. cbn [bind wp].
  apply (@set_filter1_ok A st b om sig scale mu _ Hb). unfold set_filter1.
  match goal with |- context [Filter _ ?s] => change s with (load (car1_cls A) b sig om [] scale mu) end. rewrite E. reflexivity.
Qed.
Lemma Start1_wp b g : okb st b -> wp d er (fun q => okb st (snd (fst q)) /\ List.length (fst (fst q)) = 4) (Start1 (R := R) vsort b g).
Proof.
  intros Hb. unfold Start1. pose proof Hb as [(Hu & W1 & W2 & W3) Es]. pose proof (proj1 Hu) as H2.
  eapply wp_bind; [apply vvar_wp; lia|]. intros v _. destruct (scaled_inverse_chisqr _ _ g) as [sd2 g1]. cbv zeta.
  destruct (rnorm _ _ g1) as [mu g2]. unfold make_dt. destruct (Nat.ltb_spec (List.length (b_time b)) 2) as [|_]; [lia|]. cbn [bind].
  assert (b_time b = st_time st) as Et by (rewrite <- Es; reflexivity). rewrite Et. destruct Hvs as (s & Ev & Hs).
  eapply wp_bind with (Q1 := fun _ => True).
  { unfold vmedian. assert (1 <= List.length (diffs A (st_time st))) as Hdl by (rewrite diffs_len, <- Et; lia).
    destruct (diffs A (st_time st)) as [|x r] eqn:Ed; [cbn in Hdl; lia|]. rewrite <- Ed in *. rewrite Ev.
    pose proof (Nat.div_lt (List.length (diffs A (st_time st))) 2 ltac:(lia) ltac:(lia)) as Hlt.
    destruct (Nat.even _); [|apply wp_vget; lia]. eapply wp_bind; [apply wp_vget; lia|]. intros a _. eapply wp_bind; [apply wp_vget; lia|]. intros c _. exact I. }
  intros med _. destruct (runiform _ _ g2) as [u g3]. destruct (draw_scale g3) as [sc g4]. eapply wp_bind; [apply set_filter1_wp, Hb|].
  intros b' Hb'. cbn [wp fst snd]. split; [exact Hb'|reflexivity].
Qed.
Lemma SetStart1_wp b init g : okb st b -> wp d er (fun q => okb st (snd (fst q)) /\ List.length (fst (fst q)) = 4) (SetStart1 (R := R) vsort b init g).
Proof.
  intros Hb. unfold SetStart1. destruct (Nat.eqb_spec (List.length init) 4) as [Hl|]; cbn [negb]; [|apply Start1_wp, Hb].
  eapply wp_bind; [apply LD1_wp with (st := st); assumption|]. intros [lp b1] Hb1. cbn [snd] in Hb1. destruct (negb _); [apply Start1_wp, Hb1|].
  destruct init as [|a [|c [|m [|o [|? ?]]]]]; try discriminate. cbn [vgetU nth_error bind]. cbv zeta.
  eapply wp_bind; [apply set_filter1_wp, Hb1|]. intros b2 Hb2. cbn [wp fst snd]. split; [exact Hb2|reflexivity].
Qed.
End Cls.
