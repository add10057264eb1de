(** Property theorems about data with repeated times (C63). *)
From Coq Require Import Reals List Arith ZArith Lra Lia.
From Verif Require Import Arith Res KFModel Spec Gauss Emb InitProof KF1X KF1Main Cx KFpModel SpecModel CarpackModel DupTimes.
Import ListNotations.
Local Open Scope R_scope.

(** C63 is false: sorted data with one repeated time, parameters inside the prior bounds, and LogDensity throws. *)
Theorem C63_repeated_times_refuted : exists (t y e th : list R), length y = length t /\ length e = length t /\ nondecreasing t /\
  forall (si : list (F AX) -> option (list nat)) (raw : kf1 AX), valid_sort_index si ->
    exists b, car1_new si raw (map Fin t) (map Fin y) (map Fin e) = Ok b /\ CheckPriorBounds1 (b_bounds b) (map Fin th) = Ok true /\
      LogDensity (car1_cls AX) b (map Fin th) = Throw Elogic.
Proof. exact dup_refuted. Qed.
Print Assumptions C63_repeated_times_refuted.
(** ... and this is so for every data set with a repeated time: CAR(1) gives minus infinity or throws at every theta... *)
Theorem C63_repeated_times_car1 : forall (si : list (F AX) -> option (list nat)) (raw : kf1 AX) (t y e : list R), valid_sort_index si ->
  length y = length t -> length e = length t -> (exists a b, In a t /\ In b t /\ a <> b) -> ~ NoDup t ->
  exists b, car1_new si raw (map Fin t) (map Fin y) (map Fin e) = Ok b /\
    forall th : list (F AX), (4 <= length th)%nat -> LogDensity (car1_cls AX) b th = Ok (NInf, b) \/ LogDensity (car1_cls AX) b th = Throw Elogic.
Proof. exact dup_car1. Qed.
Print Assumptions C63_repeated_times_car1.
(** ... and CARp, CARMA and ZCARMA models never give anything but minus infinity. *)
Theorem C63_repeated_times_carma : forall solve maf prior (si : list (F AX) -> option (list nat)) (raw : kfp AX) p (t y e : list R), valid_sort_index si -> p <> 0%nat ->
  length y = length t -> length e = length t -> (exists a b, In a t /\ In b t /\ a <> b) -> ~ NoDup t ->
  exists b, carp_new si raw p (map Fin t) (map Fin y) (map Fin e) = Ok b /\
    forall th l b', LogDensity (pcls solve p maf prior) b th = Ok (l, b') -> l = NInf.
Proof. exact dup_carp. Qed.
Print Assumptions C63_repeated_times_carma.
