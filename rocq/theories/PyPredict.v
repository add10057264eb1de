(** carma_pack.py: makeKalmanFilter, predict and simulate. *)
From Coq Require Import Reals List Arith ZArith Lra Lia Bool Permutation.
From Coquelicot Require Import Complex.
From Verif Require Import Arith Res ListLemmas KFModel KF1Proof Spec Gauss Emb KF1R History KF1X InitProof OUpd SimProof KF1Main KF1More KF1Refute.
From Verif Require Import Cx KFpModel KFpProof SpecCarma CLin KFpX KFpMain KFpTop KFpMore SpecModel CarpackModel RootsProof PriorProof LogLikMain PyModel PySim PyFuns PyDerive.
Import ListNotations.
Local Open Scope R_scope.

(** ** the loop over the times *)
Section Loop.
Context {X Par : Type}.
Variables (par : X -> Par) (M : methods AX X) (good : kf AX X -> Prop).
Variables (pf : setup AX Par -> res (list xr * list xr)) (pp : setup AX Par -> xr -> res (xr * xr)).
Hypothesis HF : pureF par M good pf.
Hypothesis HP : pureP par M good pp.
Lemma predict_loop_pure (mu : xr) : forall (ts : list xr) s, usable s -> good s ->
  (forall t, In t ts -> exists m v, pp (setup_of par s) t = Ok (m, v)) ->
  exists out, predict_loop M s mu ts = Ok out /\
    Forall2 (fun t mv => exists m v, pp (setup_of par s) t = Ok (m, v) /\ mv = (xadd m mu, v)) ts out.
Proof.
  induction ts as [|t ts IH]; intros s Hu Hg H.
  - exists []. split; [reflexivity|constructor].
  - destruct (HP s t Hu Hg) as [Ho Hn]. destruct (H t (or_introl eq_refl)) as (m & v & E). rewrite E in Ho.
    destruct (m_Predict M s t) as [[r s']|ex| |] eqn:EP; try discriminate Ho. cbn [obs_fst] in Ho. injection Ho as ->.
    destruct (Hn _ _ eq_refl) as (Es & Hu' & Hg').
    destruct (IH s' Hu' Hg') as (out & Eo & Hf); [intros u Hu0; rewrite Es; apply H; right; exact Hu0|].
    exists ((xadd m mu, v) :: out). split.
    + cbn [predict_loop]. rewrite EP. cbn [bind]. change (F AX) with xr in *. rewrite Eo. reflexivity.
    + constructor; [exists m, v; split; [exact E|reflexivity]|]. rewrite <- Es. exact Hf.
Qed.
Lemma predict_pure (mu : xr) (ts : list xr) s : usable s -> good s -> (exists r, pf (setup_of par s) = Ok r) ->
  (forall t, In t ts -> exists m v, pp (setup_of par s) t = Ok (m, v)) ->
  exists out, py_predict M s mu ts = Ok out /\
    Forall2 (fun t mv => exists m v, pp (setup_of par s) t = Ok (m, v) /\ mv = (xadd m mu, v)) ts out.
Proof.
  intros Hu Hg [r Er] H. destruct (HF s Hu Hg) as [Ho Hn]. rewrite Er in Ho.
  destruct (Filter M s) as [s'|ex| |] eqn:EF; try discriminate Ho. destruct (Hn _ eq_refl) as (Es & Hu' & Hg').
  destruct (predict_loop_pure mu ts s' Hu' Hg') as (out & Eo & Hf); [intros t Ht; rewrite Es; apply H, Ht|].
  exists out. split; [unfold py_predict; rewrite EF; exact Eo|]. rewrite <- Es. exact Hf.
Qed.
End Loop.

(** A prediction of each requested time: [mu] added to the conditional mean, and the conditional variance, which is positive. *)
Definition predictions (K : R -> R -> R) (t y e : list R) (mu : R) (ts : list R) (out : list (R * R)) : Prop :=
  Forall2 (fun tp mv => 0 < snd mv /\ cond_dist K t (map (fun x => x - mu) y) e tp (fst mv - mu) (snd mv)) ts out.
(** no noise-free measurement at a requested time *)
Definition no_exact (t e ts : list R) : Prop := forall i, (i < length t)%nat -> In (nth i t 0) ts -> nth i e 0 <> 0.

Lemma out_Fin mu (P : R -> R -> R -> Prop) ts : forall out : list (xr * xr),
  Forall2 (fun (t : xr) mv => exists tp m v, t = Fin tp /\ P tp m v /\ mv = (xadd (Fin m) (Fin mu), Fin v)) (map Fin ts) out ->
  exists o, out = map (fun mv => (Fin (fst mv), Fin (snd mv))) o /\ Forall2 (fun tp mv => P tp (fst mv - mu) (snd mv)) ts o.
Proof.
  induction ts as [|tp ts IH]; intros out H; cbn [map] in H; inversion H; subst.
  - exists []. split; [reflexivity|constructor].
  - destruct H2 as (tp' & m & v & E & HP & ->). injection E as <-. destruct (IH _ H4) as (o & -> & Ho).
    exists ((m + mu, v) :: o). split; [reflexivity|]. constructor; [|exact Ho]. cbn [fst snd]. replace (m + mu - mu) with m by ring. exact HP.
Qed.
Lemma Forall2_impl_in T U (P Q : T -> U -> Prop) l l' : (forall a b, In a l -> P a b -> Q a b) -> Forall2 P l l' -> Forall2 Q l l'.
Proof.
  intros H F. induction F as [|a b l l' HP F IH]; constructor; [apply H; [left; reflexivity|exact HP]|].
  apply IH. intros x y Hx. apply H. right. exact Hx.
Qed.

Lemma predict1_holds s tr yr er sig w mu ts : holds1 s tr yr er sig w -> strictly_increasing tr -> 0 < sig -> 0 < w ->
  (forall i, (i < length tr)%nat -> In (nth i tr 0) ts -> nth i er 0 <> 0) ->
  exists o, py_predict (methods1 AX) s (Fin mu) (map Fin ts) = Ok (map (fun mv => (Fin (fst mv), Fin (snd mv))) o) /\
    Forall2 (fun tp mv => 0 < snd mv /\ cond_dist (ou_cov sig w) tr yr er tp (fst mv - mu) (snd mv)) ts o.
Proof.
  intros Hs Hinc Hsig Hw Hnz. pose proof Hs as (Hu & _).
  assert (forall tp, In tp ts -> exists m v, pp1 AX (setup_of (fun x => x) s) (Fin tp) = Ok (Fin m, Fin v) /\ 0 < v /\ cond_dist (ou_cov sig w) tr yr er tp m v) as HPP.
  { intros tp Htp. destruct (predict_main s tr yr er sig w Hs (strict_times_ok _ _ Hinc) Hsig Hw tp) as (m & v & s' & E & Hc & Hv & _); [intros i Hi Et; apply Hnz; [exact Hi|rewrite Et; exact Htp]|].
    destruct (pureP1 AX s (Fin tp) Hu I) as [Ho _]. cbn [m_Predict methods1] in Ho. exists m, v. split; [|split; [exact Hv|exact Hc]]. rewrite <- Ho.
    apply (f_equal obs_fst) in E. exact E. }
  destruct (predict_pure (fun x => x) (methods1 AX) (@good1 AX) (pf1 AX) (pp1 AX) (pureF1 AX) (pureP1 AX) (Fin mu) (map Fin ts) s Hu I) as (out & Eo & Hf).
  - destruct (filter_c05 s tr yr er sig w Hs Hinc Hsig Hw) as (s' & EF & _). destruct (pureF1 AX s Hu I) as [Ho _]. rewrite EF in Ho. eexists. symmetry. exact Ho.
  - intros t Ht. apply in_map_iff in Ht. destruct Ht as (tp & <- & Htp). destruct (HPP tp Htp) as (m & v & E & _). exists (Fin m), (Fin v). exact E.
  - destruct (out_Fin mu (fun tp m v => 0 < v /\ cond_dist (ou_cov sig w) tr yr er tp m v) ts out) as (o & -> & Ho).
    + eapply Forall2_impl_in; [|exact Hf]. intros t mv Ht (m & v & E & ->). apply in_map_iff in Ht. destruct Ht as (tp & <- & Htp).
      destruct (HPP tp Htp) as (m' & v' & E' & Hc). rewrite E' in E. injection E as <- <-. exists tp, m', v'. split; [reflexivity|]. split; [exact Hc|reflexivity].
    + exists o. split; [exact Eo|exact Ho].
Qed.
Lemma predictp_holds solve (Hsolve : valid_solve solve) s tr yr er sig om ma mu ts : holdsp s tr yr er sig om ma -> strictly_increasing tr -> carma_ok sig om ma ->
  (forall i, (i < length tr)%nat -> In (nth i tr 0) ts -> nth i er 0 <> 0) ->
  exists o, py_predict (methodsp solve) s (Fin mu : F AX) (map Fin ts) = Ok (map (fun mv => (Fin (fst mv), Fin (snd mv))) o) /\
    Forall2 (fun tp mv => 0 < snd mv /\ cond_dist (carma_cov sig ma om) tr yr er tp (fst mv - mu) (snd mv)) ts o.
Proof.
  intros Hs Hinc Hok Hnz. pose proof Hs as (Hu & Hg & _).
  assert (forall tp, In tp ts -> exists m v, ppp solve (setup_of (@par_of AX) s) (Fin tp) = Ok (Fin m, Fin v) /\ 0 < v /\ cond_dist (carma_cov sig ma om) tr yr er tp m v) as HPP.
  { intros tp Htp. destruct (predictp solve Hsolve s tr yr er sig om ma Hs Hinc Hok tp) as (m & v & s' & E & Hc & Hv & _); [intros i Hi Et; apply Hnz; [exact Hi|rewrite Et; exact Htp]|].
    destruct (purePp solve (Fin tp : F AX) Hu Hg) as [Ho _]. cbn [m_Predict methodsp] in Ho. exists m, v. split; [|split; [exact Hv|exact Hc]]. rewrite <- Ho.
    apply (f_equal obs_fst) in E. exact E. }
  destruct (predict_pure (@par_of AX) (methodsp solve) (@goodp AX) (pfp solve) (ppp solve) (pureFp solve) (purePp solve) (Fin mu) (map Fin ts) s Hu Hg) as (out & Eo & Hf).
  - destruct (filterp solve Hsolve s tr yr er sig om ma Hs Hinc Hok) as (s' & EF & _). destruct (pureFp solve Hu Hg) as [Ho _]. rewrite EF in Ho. eexists. symmetry. exact Ho.
  - intros t Ht. apply in_map_iff in Ht. destruct Ht as (tp & <- & Htp). destruct (HPP tp Htp) as (m & v & E & _). exists (Fin m), (Fin v). exact E.
  - destruct (out_Fin mu (fun tp m v => 0 < v /\ cond_dist (carma_cov sig ma om) tr yr er tp m v) ts out) as (o & -> & Ho).
    + eapply Forall2_impl_in; [|exact Hf]. intros t mv Ht (m & v & E & ->). apply in_map_iff in Ht. destruct Ht as (tp & <- & Htp).
      destruct (HPP tp Htp) as (m' & v' & E' & Hc). rewrite E' in E. injection E as <- <-. exists tp, m', v'. split; [reflexivity|]. split; [exact Hc|reflexivity].
    + exists o. split; [exact Eo|exact Ho].
Qed.

(** ** argmax *)
Definition first_max (lp : list R) (i : nat) : Prop :=
  (i < length lp)%nat /\ (forall j, (j < length lp)%nat -> nth j lp 0 <= nth i lp 0) /\ (forall j, (j < i)%nat -> nth j lp 0 < nth i lp 0).
Lemma argmax_loop_Fin : forall (l pre : list R) mp mi, (mi < length pre)%nat -> mp = nth mi pre 0 ->
  (forall j, (j < length pre)%nat -> nth j pre 0 <= mp) -> (forall j, (j < mi)%nat -> nth j pre 0 < mp) ->
  first_max (pre ++ l) (argmax_loop AX (map Fin l) (length pre) (Fin mp) mi).
Proof.
  induction l as [|x l IH]; intros pre mp mi Hmi Emp Hle Hlt; cbn [map argmax_loop].
  - rewrite app_nil_r. split; [exact Hmi|]. rewrite <- Emp. split; assumption.
  - assert (fle AX (Fin x) (Fin mp) = if Rlt_dec mp x then false else true) as ->.
    { unfold fle. cbn [flt feq AX xlt xeq]. destruct (Rlt_dec x mp), (Rlt_dec mp x), (Req_EM_T x mp); try reflexivity; lra. }
    replace (pre ++ x :: l) with ((pre ++ [x]) ++ l) by (rewrite <- app_assoc; reflexivity).
    replace (S (length pre)) with (length (pre ++ [x])) by (rewrite app_length; cbn; lia).
    assert (nth (length pre) (pre ++ [x]) 0 = x) as Ex by (rewrite app_nth2, Nat.sub_diag by lia; reflexivity).
    destruct (Rlt_dec mp x) as [L|L].
    + assert (feq AX (Fin x) (Fin x) = true) as -> by (cbn [feq AX xeq]; destruct (Req_EM_T x x); [reflexivity|contradiction]).
      apply IH.
      * rewrite app_length. cbn. lia.
      * symmetry. exact Ex.
      * intros j Hj. rewrite app_length in Hj. cbn in Hj. destruct (Nat.eq_dec j (length pre)) as [->|]; [rewrite Ex; lra|].
        rewrite app_nth1 by lia. specialize (Hle j ltac:(lia)). lra.
      * intros j Hj. rewrite app_nth1 by exact Hj. specialize (Hle j Hj). lra.
    + apply IH.
      * rewrite app_length. lia.
      * rewrite app_nth1 by exact Hmi. exact Emp.
      * intros j Hj. rewrite app_length in Hj. cbn in Hj. destruct (Nat.eq_dec j (length pre)) as [->|]; [rewrite Ex; lra|].
        rewrite app_nth1 by lia. apply Hle. lia.
      * intros j Hj. rewrite app_nth1 by lia. apply Hlt, Hj.
Qed.
Lemma np_argmax_Fin (lp : list R) : lp <> [] -> exists i, np_argmax AX (map Fin lp) = Ok i /\ first_max lp i.
Proof.
  destruct lp as [|x lp]; [contradiction|]. intros _. eexists. split; [reflexivity|].
  assert (feq AX (Fin x) (Fin x) = true) as -> by (cbn [feq AX xeq]; destruct (Req_EM_T x x); [reflexivity|contradiction]).
  apply (argmax_loop_Fin lp [x] x 0); try reflexivity.
  - cbn. lia.
  - cbn. intros [|j] Hj; [lra|lia].
  - intros j Hj. lia.
Qed.

(** ** predict with bestfit = 'map' *)
Lemma centre_Fin (y : list R) mu : map (fun x => fsub AX x (Fin mu)) (map Fin y) = map Fin (map (fun x => x - mu) y).
Proof. rewrite !map_map. reflexivity. Qed.
Lemma two_distinct (t : list R) : strictly_increasing t -> (2 <= length t)%nat -> exists a b, In a t /\ In b t /\ a <> b.
Proof.
  intros H L. destruct t as [|a [|b r]]; cbn in L; try lia. exists a, b. split; [left; reflexivity|]. split; [right; left; reflexivity|].
  pose proof (H 0%nat 1%nat ltac:(cbn; lia) ltac:(cbn; lia)) as Hab. cbn in Hab. lra.
Qed.
Lemma car1_filter_Fin (si : list (F AX) -> option (list nat)) (raw : kf1 AX) t y e sigma mu lo : valid_sort_index si -> strictly_increasing t -> (2 <= length t)%nat ->
  length y = length t -> length e = length t ->
  exists s, car1_filter si raw (map Fin t) (map Fin y) (map Fin e) (Fin sigma) (Fin mu) (Fin lo) = Ok s /\
    holds1 s t (map (fun x => x - mu) y) e (sigma * sigma) (exp lo).
Proof.
  intros Hsi Hinc Ht Hy He. unfold car1_filter. change (F AX) with xr. rewrite centre_Fin.
  destruct (construct_main _ si (SetOmega1 (SetSigsqr raw (Fin (sigma * sigma) : F AX)) (Fin (exp lo))) t (map (fun x => x - mu) y) e Hsi)
    as (s & t' & y' & e' & E & E1 & E2 & E3 & _ & _ & _ & Hk & Hu & Es & Ex & _); [rewrite map_length; exact Hy|exact He|apply two_distinct; assumption|].
  destruct (Hk Hinc) as (-> & -> & ->). exists s. split; [exact E|]. unfold holds1. repeat split; assumption || apply Hu.
Qed.
Lemma car1_map_holds (si : list (F AX) -> option (list nat)) (raw : kf1 AX) (t y e : list R) (rows : list (list R)) (lp : list R) : valid_sort_index si -> strictly_increasing t -> (2 <= length t)%nat ->
  length y = length t -> length e = length t -> lp <> [] -> length rows = length lp ->
  (forall th, In th rows -> length th = 4%nat /\ nth 0 th 0 <> 0) ->
  exists i s, first_max lp i /\ let th := nth i rows [] in
    car1_map_filter si raw (map Fin t) (map Fin y) (map Fin e) (map (map Fin) rows) (map Fin lp) = Ok (s, Fin (nth 2 th 0)) /\
    holds1 s t (map (fun x => x - nth 2 th 0) y) e (2 * (nth 0 th 0 * nth 0 th 0) * exp (nth 3 th 0)) (exp (nth 3 th 0)) /\
    0 < 2 * (nth 0 th 0 * nth 0 th 0) * exp (nth 3 th 0).
Proof.
  intros Hsi Hinc Ht Hy He Hlp Hlen Hrows. destruct (np_argmax_Fin lp Hlp) as (i & Ei & Hm). exists i. pose proof Hm as (Hi & _).
  set (th := nth i rows []). destruct (Hrows th) as [Lth Ht0]; [apply nth_In; lia|].
  set (t0 := nth 0 th 0) in *. set (mu := nth 2 th 0). set (lo := nth 3 th 0).
  assert (0 < t0 * t0) as Hpos by nra. pose proof (exp_pos lo) as Hw.
  assert (0 <= 2 * (t0 * t0) * exp lo) as Hnn by (apply Rmult_le_pos; lra).
  set (sigma := sqrt (2 * (t0 * t0) * exp lo)). assert (sigma * sigma = 2 * (t0 * t0) * exp lo) as Ess by (apply sqrt_sqrt, Hnn).
  destruct (car1_filter_Fin si raw t y e sigma mu lo Hsi Hinc Ht Hy He) as (s & Es & Hs). rewrite Ess in Hs.
  exists s. split; [exact Hm|]. split; [|split; [exact Hs|change (0 < 2 * (t0 * t0) * exp lo); apply Rmult_lt_0_compat; lra]].
  unfold car1_map_filter. change (F AX) with xr. rewrite Ei. cbn [bind].
  assert (vget (map (map Fin) rows) i = Ok (map Fin th)) as Er.
  { rewrite vget_ok with (d := map Fin []) by (rewrite map_length; lia). rewrite map_nth. reflexivity. }
  rewrite Er. cbn [bind]. rewrite !vget_Fin by lia. cbn [bind]. fold t0 mu lo.
  assert (car1_sigma AX (fmul AX (Fin t0) (Fin t0)) (Fin lo) = Fin sigma) as -> by (refine (fin_sqrt _ _); exact Hnn).
  rewrite Es. reflexivity.
Qed.
(** the covariance of the CAR(1) process of a row *)
Definition car1_K (th : list R) : R -> R -> R := fun a c => nth 0 th 0 * nth 0 th 0 * exp (- (exp (nth 3 th 0) * Rabs (a - c))).
Lemma car1_K_ou th a c : ou_cov (2 * (nth 0 th 0 * nth 0 th 0) * exp (nth 3 th 0)) (exp (nth 3 th 0)) a c = car1_K th a c.
Proof. unfold ou_cov, car1_K. pose proof (exp_pos (nth 3 th 0)) as Hw. set (w := exp (nth 3 th 0)) in *. clearbody w. replace (2 * (nth 0 th 0 * nth 0 th 0) * w / (2 * w)) with (nth 0 th 0 * nth 0 th 0) by (field; lra). reflexivity. Qed.
Theorem car1_predict_map (si : list (F AX) -> option (list nat)) (raw : kf1 AX) (t y e : list R) (rows : list (list R)) (lp ts : list R) : valid_sort_index si -> strictly_increasing t -> (2 <= length t)%nat ->
  length y = length t -> length e = length t -> lp <> [] -> length rows = length lp ->
  (forall th, In th rows -> length th = 4%nat /\ nth 0 th 0 <> 0) -> no_exact t e ts ->
  exists i s o, first_max lp i /\ let th := nth i rows [] in
    car1_map_filter si raw (map Fin t) (map Fin y) (map Fin e) (map (map Fin) rows) (map Fin lp) = Ok (s, Fin (nth 2 th 0)) /\
    py_predict (methods1 AX) s (Fin (nth 2 th 0)) (map Fin ts) = Ok (map (fun mv => (Fin (fst mv), Fin (snd mv))) o) /\
    predictions (fun a c => nth 0 th 0 * nth 0 th 0 * exp (- (exp (nth 3 th 0) * Rabs (a - c)))) t y e (nth 2 th 0) ts o.
Proof.
  intros Hsi Hinc Ht Hy He Hlp Hlen Hrows Hnz.
  destruct (car1_map_holds si raw t y e rows lp Hsi Hinc Ht Hy He Hlp Hlen Hrows) as (i & s & Hm & Es & Hs & Hpos). cbv zeta in *.
  destruct (predict1_holds s t _ e _ _ (nth 2 (nth i rows []) 0) ts Hs Hinc Hpos (exp_pos _) Hnz) as (o & Eo & Ho).
  exists i, s, o. split; [exact Hm|]. split; [exact Es|]. split; [exact Eo|].
  unfold predictions. eapply Forall2_impl_in; [|exact Ho]. intros tp mv _ (Hv & Hc). cbv beta in Hc |- *. split; [exact Hv|].
  eapply cond_dist_ext; [|exact Hc]. intros a c. symmetry. symmetry. apply (car1_K_ou (nth i rows [])).
Qed.

Lemma carma_filter_Fin (si : list (F AX) -> option (list nat)) (raw : kfp AX) t y e sigma mu (om : list C) ma : valid_sort_index si -> strictly_increasing t -> (2 <= length t)%nat ->
  length y = length t -> length e = length t ->
  exists s, carma_filter si raw (map Fin t) (map Fin y) (map Fin e) (Fin sigma) (Fin mu : F AX) (map FinC om) (map Fin ma) = Ok s /\
    holdsp s t (map (fun x => x - mu) y) e (sigma * sigma) om (ma ++ repeat 0 (length om - length ma)).
Proof.
  intros Hsi Hinc Ht Hy He. unfold carma_filter. change (F AX) with xr. rewrite centre_Fin.
  destruct (constructp si raw t (map (fun x => x - mu) y) e (sigma * sigma) om ma Hsi)
    as (s & t' & y' & e' & E & _ & Hk & Hh); [rewrite map_length; exact Hy|exact He|apply two_distinct; assumption|].
  destruct (Hk Hinc) as (-> & -> & ->). exists s. split; [exact E|exact Hh].
Qed.
(** The covariance of the CARMA process with the parameters [th], as the C++ likelihood computes them *)
Definition carma_params (p q : nat) (th : list R) (sig : R) (om : list C) (ma : list R) : Prop :=
  ARRoots AX p (map Fin th) = Ok (map FinC om) /\ ExtractMA_carma AX p q (map Fin th) = Ok (map Fin ma) /\
  Sigp AX p (ExtractMA_carma AX p q) (map Fin th) = Ok (Fin sig).
Lemma carma_map_holds (isreal : list (cx AX) -> bool) (si : list (F AX) -> option (list nat)) (raw : kfp AX) p q (t y e : list R) (rows : list (list R)) (lp : list R) : valid_sort_index si ->
  strictly_increasing t -> (2 <= length t)%nat -> length y = length t -> length e = length t ->
  (2 <= p)%nat -> (q < p)%nat -> lp <> [] -> length rows = length lp ->
  (forall th, In th rows -> length th = (3 + p + q)%nat /\ nth 0 th 0 <> 0 /\ forall om : list C, ARRoots AX p (map Fin th) = Ok (map FinC om) -> NoDup om) ->
  exists i s sig om ma, first_max lp i /\ let th := nth i rows [] in
    carma_map_filter isreal si raw (map Fin t) (map Fin y) (map Fin e) q (map (map Fin) rows) (map Fin lp) = Ok (s, Fin (nth 2 th 0)) /\
    carma_params p q th sig om ma /\
    holdsp s t (map (fun x => x - nth 2 th 0) y) e sig om ma /\ carma_ok sig om ma.
Proof.
  intros Hsi Hinc Ht Hy He Hp Hq Hlp Hlen Hrows. destruct (np_argmax_Fin lp Hlp) as (i & Ei & Hm). exists i. pose proof Hm as (Hi & _).
  set (th := nth i rows []). destruct (Hrows th) as (Lth & Ht0 & Hnd); [apply nth_In; lia|].
  destruct (py_derive_cpp isreal p q th Hp Hq Lth) as (d & Ed & Ev & Esc & Emu & Ear & Ema & Esig & Hfin).
  destruct (ARRoots_main p th ltac:(lia)) as (om & Eom & Lom & Hneg & Hcc & _).
  destruct (ExtractMA_carma_main p q th Hq ltac:(lia)) as (ma & Ema' & Lma & Hma0 & _).
  specialize (Hnd om Eom). assert (d_roots d = map FinC om) as Edr by congruence.
  destruct (Hfin om Edr Hnd) as (sg & Esg & Hsg).
  (* the short list of moving average coefficients *)
  destruct (py_ma_Fin isreal p q th Hq Lth) as (ms & Ems & Lms & Ecpp).
  assert (d_ma d = map Fin ms) as Edm.
  { unfold py_derive in Ed. change (F AX) with xr in Ed. rewrite map_length, Lth in Ed. replace (3 + p + q - 3 - q)%nat with p in Ed by lia.
    rewrite !vget_Fin in Ed by lia. cbn [bind] in Ed. rewrite py_ar_roots_Fin in Ed by lia. cbn [bind] in Ed. rewrite Ems in Ed. cbn [bind] in Ed.
    injection Ed as <-. reflexivity. }
  assert (ma = ms ++ repeat 0 (p - S q)) as Em by (apply map_Fin_inj; congruence).
  destruct (carma_filter_Fin si raw t y e sg (nth 2 th 0) om ms Hsi Hinc Ht Hy He) as (s & Es & Hs).
  rewrite Lom, Lms, <- Em in Hs.
  assert (stable_roots om) as Hst by (split; [exact Hnd|split; [exact Hneg|intros z Hz; apply conj_closed_in; assumption]]).
  assert (exists l, nth l ma 0 <> 0) as Hex by (exists O; rewrite Hma0; lra).
  assert (0 < carma_acv 1 ma om 0) as Hpos by (apply carma_acv_pos; [exact Hst|lia|congruence|exact Hex]).
  assert (sg * sg = nth 0 th 0 * nth 0 th 0 / carma_acv 1 ma om 0) as Esq.
  { rewrite Esg in Esig. unfold Sigp in Esig. rewrite Eom in Esig. cbn [bind] in Esig. rewrite Ema' in Esig. cbn [bind] in Esig. rewrite vget_Fin in Esig by lia.
    cbn [bind] in Esig. change (fofZ AX 1) with (Fin 1) in Esig. change (fofZ AX 0) with (Fin 0) in Esig.
    rewrite (Variance_Fin om ma 1 0 Hnd Hneg) in Esig. replace (1 * 1) with 1 in Esig by ring.
    assert (fdiv AX (fmul AX (Fin (nth 0 th 0)) (Fin (nth 0 th 0))) (Fin (carma_acv 1 ma om 0)) = Fin (nth 0 th 0 * nth 0 th 0 / carma_acv 1 ma om 0)) as E by (refine (fin_div _ _ _); lra).
    injection Esig as Esig. apply (fun H => eq_trans (eq_sym E) H) in Esig. injection Esig as Esig. symmetry. exact Esig. }
  assert (carma_ok (sg * sg) om ma) as Hok.
  { repeat split; try apply Hst; try lia; try exact Hex. rewrite Esq. apply Rdiv_lt_0_compat; [nra|exact Hpos]. }
  exists s, (sg * sg), om, ma. split; [exact Hm|]. split; [|split; [|split; [exact Hs|exact Hok]]].
  - unfold carma_map_filter. change (F AX) with xr in *. rewrite Ei. cbn [bind].
    assert (vget (map (map Fin) rows) i = Ok (map Fin th)) as Er.
    { rewrite vget_ok with (d := map Fin []) by (rewrite map_length; lia). rewrite map_nth. reflexivity. }
    rewrite Er. cbn [bind]. change (F AX) with xr in *. rewrite Ed. cbn [bind]. rewrite Esg, Emu, Edr, Edm, Es. reflexivity.
  - split; [exact Eom|]. split; [exact Ema'|]. rewrite Esig, Esg. reflexivity.
Qed.
Theorem carma_predict_map solve (isreal : list (cx AX) -> bool) (si : list (F AX) -> option (list nat)) (raw : kfp AX) p q (t y e : list R) (rows : list (list R)) (lp ts : list R) : valid_solve solve -> valid_sort_index si ->
  strictly_increasing t -> (2 <= length t)%nat -> length y = length t -> length e = length t ->
  (2 <= p)%nat -> (q < p)%nat -> lp <> [] -> length rows = length lp ->
  (forall th, In th rows -> length th = (3 + p + q)%nat /\ nth 0 th 0 <> 0 /\ forall om : list C, ARRoots AX p (map Fin th) = Ok (map FinC om) -> NoDup om) ->
  no_exact t e ts ->
  exists i s o sig om ma, first_max lp i /\ let th := nth i rows [] in
    carma_map_filter isreal si raw (map Fin t) (map Fin y) (map Fin e) q (map (map Fin) rows) (map Fin lp) = Ok (s, Fin (nth 2 th 0)) /\
    py_predict (methodsp solve) s (Fin (nth 2 th 0) : F AX) (map Fin ts) = Ok (map (fun mv => (Fin (fst mv), Fin (snd mv))) o) /\
    carma_params p q th sig om ma /\
    predictions (carma_cov sig ma om) t y e (nth 2 th 0) ts o.
Proof.
  intros Hsv Hsi Hinc Ht Hy He Hp Hq Hlp Hlen Hrows Hnz.
  destruct (carma_map_holds isreal si raw p q t y e rows lp Hsi Hinc Ht Hy He Hp Hq Hlp Hlen Hrows) as (i & s & sig & om & ma & Hm & Es & Hpar & Hs & Hok). cbv zeta in *.
  destruct (predictp_holds solve Hsv s t _ e _ om ma (nth 2 (nth i rows []) 0) ts Hs Hinc Hok Hnz) as (o & Eo & Ho).
  exists i, s, o, sig, om, ma. split; [exact Hm|]. split; [exact Es|]. split; [exact Eo|]. split; [exact Hpar|exact Ho].
Qed.
