(** StartingValue and SetStartingValue of the CARp, ZCAR, CARMA and ZCARMA classes. *)
From Coq Require Import List Arith ZArith Bool.
From Verif Require Import Arith Res ListLemmas KFModel Cx KFpModel KFpProof SpecCarma CLin KFpX KFpMain KFpTop KFpMore CarpackModel LogLikProof EngineModel StartModel EngineClass EngineDriver TotalProof.
Import ListNotations.
Set Implicit Arguments.

Section S.
Variable A : Arith.
Variable R : rng A.
Variable dsort : list (F A) -> option (list (F A)).
Variable solve : list (list (cx A)) -> list (cx A) -> option (list (cx A)).
Local Notation vec := (list (F A)).

(** the class C, its parameter object as the engine sees it, the number of its parameters *)
Inductive multi (fuel p : nat) : cls A (kpx A) (list (cx A)) -> methodsP R (base A (kpx A)) vec -> nat -> Prop :=
| m_carp : multi fuel p (carp_cls solve p) (par_carp R dsort solve fuel p) (p + 3)
| m_zcar : multi fuel p (zcar_cls solve p) (par_zcar R dsort solve fuel p) (p + 3)
| m_carma q : multi fuel p (carma_cls solve p q) (par_carma R dsort solve fuel p q) (p + q + 3)
| m_zcarma kl kh : multi fuel p (zcarma_cls solve p kl kh) (par_zcarma R dsort solve fuel p kl kh) (p + 4).

Lemma multi_form fuel p C M n : multi fuel p C M n ->
  exists maf prior extra early withma, C = pcls solve p maf prior /\ M = parp dsort solve fuel p C extra early withma n.
Proof. intros []; do 5 eexists; split; reflexivity. Qed.

Lemma pld_again p maf prior st x v l : okb st x ->
  pLD (pcls solve p maf prior) (fun om (ma : vec) => (om, ma)) (@pfp A solve) st v = Ok l ->
  exists x', LogDensity (pcls solve p maf prior) x v = Ok (l, x').
Proof.
  intros [Hw <-] E. destruct (@LD_purep A solve p maf prior x v Hw) as [H0 _]. pose proof (eq_trans H0 E) as H.
  destruct (LogDensity _ x v) as [[l' x']| | |]; try discriminate. cbn in H. injection H as ->. exists x'. reflexivity.
Qed.

Theorem start_finite fuel p C M n b g th b' g' : multi fuel p C M n -> wfb b -> o_Start M b g = Ok (th, b', g') ->
  static_of b' = static_of b /\ wfb b' /\ exists l b2, LogDensity C b' th = Ok (l, b2) /\ ffin A l = true.
Proof.
  intros HM Hw E. destruct (multi_form HM) as (maf & prior & extra & early & withma & -> & ->). cbn [o_Start parp] in E.
  destruct (start_while_ok (st := static_of b) (Logic.conj Hw eq_refl) E) as [[Hw' Hs] (l & El & Hf)].
  split; [exact Hs|]. split; [exact Hw'|]. destruct (@pld_again p maf prior _ _ _ _ (Logic.conj Hw' Hs) El) as [b2 E2]. eauto.
Qed.
Theorem set_start_finite fuel p C M n b init g th b' g' : multi fuel p C M n -> wfb b -> o_SetStart M b init g = Ok (th, b', g') ->
  static_of b' = static_of b /\ wfb b' /\ exists l b2, LogDensity C b' th = Ok (l, b2) /\ ffin A l = true.
Proof.
  intros HM Hw E. destruct (multi_form HM) as (maf & prior & extra & early & withma & -> & ->). cbn [o_SetStart parp] in E.
  destruct (set_start_ok (st := static_of b) (Logic.conj Hw eq_refl) E) as [[Hw' Hs] (l & El & Hf)].
  split; [exact Hs|]. split; [exact Hw'|]. destruct (@pld_again p maf prior _ _ _ _ (Logic.conj Hw' Hs) El) as [b2 E2]. eauto.
Qed.
(** init is taken exactly when it has the right length and a finite log-density *)
Theorem set_start_takes fuel p C M n b init g lp b1 : multi fuel p C M n -> ffin A (fneg A (finf A)) = false -> wfb b ->
  length init = n -> LogDensity C b init = Ok (lp, b1) -> ffin A lp = true -> exists b2, o_SetStart M b init g = Ok (init, b2, g).
Proof.
  intros HM Hn Hw Hl E Hf. destruct (multi_form HM) as (maf & prior & extra & early & withma & -> & ->).
  exact (set_start_init dsort extra early withma fuel g Hn Hw Hl E Hf).
Qed.
Theorem set_start_length fuel p C M n b init g : multi fuel p C M n -> length init <> n -> o_SetStart M b init g = o_Start M b g.
Proof.
  intros HM Hl. destruct (multi_form HM) as (maf & prior & extra & early & withma & -> & ->). cbn [o_SetStart o_Start parp].
  unfold set_start. apply Nat.eqb_neq in Hl. rewrite Hl. reflexivity.
Qed.
Theorem set_start_nonfinite fuel p C M n b init g lp b1 : multi fuel p C M n -> length init = n ->
  LogDensity C b init = Ok (lp, b1) -> ffin A lp = false -> o_SetStart M b init g = o_Start M b1 g.
Proof.
  intros HM Hl E Hf. destruct (multi_form HM) as (maf & prior & extra & early & withma & -> & ->). cbn [o_SetStart o_Start parp].
  unfold set_start. rewrite Hl, Nat.eqb_refl, E. cbn [negb bind]. rewrite Hf. reflexivity.
Qed.
End S.
