(** The constructors of the filter classes which take the data alone. *)
From Coq Require Import List Arith ZArith Bool.
From Verif Require Import Arith Res KFModel Cx KFpModel.
Import ListNotations.

Set Implicit Arguments.

Section Ctor.
Variable A : Arith.
Local Notation F := (F A).

(** KalmanFilter1(time, y, yerr): kfilter.hpp L215 and L222-232, boost_python_wrapper.cpp L79.  sigsqr_ and omega_ are plain doubles the constructor does not
    set: they are whatever the memory holds, [raw]. *)
Definition kf1_data (sort_index : list F -> option (list nat)) (raw : kf1 A) (t y e : list F) : res (kf1 A) := kf_new sort_index raw t y e.
(** the five-argument constructors, kfilter.hpp L216-221 and L233-245 *)
Definition kf1_full (sort_index : list F -> option (list nat)) (raw : kf1 A) (t y e : list F) (sig w : F) : res (kf1 A) :=
  kf_new sort_index (SetOmega1 (SetSigsqr raw sig) w) t y e.

(** KalmanFilterp(time, y, yerr): kfilter.hpp L270 and L292-302, boost_python_wrapper.cpp L89.  The Armadillo members are default-constructed, that is empty
    (ma_coefs_, omega_ and the work arrays of L370-388); sigsqr_, innovation_ and p_ are not set. *)
Definition no_params (raw : kfp A) : kfp A := set_ext raw (mkX [] [] [] [] [] [] [] [] (x_innov (k_ext raw)) [] []).
Definition kfp_data (sort_index : list F -> option (list nat)) (raw : kfp A) (t y e : list F) : res (kfp A) := kf_new sort_index (no_params raw) t y e.

(** KalmanFilterp::Reset on an object whose p_ need not be omega_.n_elem, kfilter.cpp L143-149: EigenMat.row(0) and EigenMat.row(1) must exist and the row
    assigned from omega_ must have p_ elements, otherwise a logic_error (for a very large p_ the allocation of the matrix fails instead, which is an exception too). *)
Variable solve : list (list (cx A)) -> list (cx A) -> option (list (cx A)).
Definition Reset_p (p : nat) (s : kfp A) : res (kfp A) :=
  if p <? 1 then Throw Elogic else
  if p <? 2 then Throw Elogic else
  if negb (length (x_omega (k_ext s)) =? p) then Throw Elogic else Resetp solve s.
(** KalmanFilterp::Predict on such an object, kfilter.cpp L218-286: it calls Reset() after the search *)
Definition Predict_p (p : nat) (s : kfp A) (t : F) : res ((F * F) * kfp A) :=
  _ <- ipredict A (k_time s) t ;; _ <- Reset_p p s ;; Predictp solve s t.
(** the virtual methods of KalmanFilterp for such an object, kfilter.hpp L359-367 *)
Definition methods_p (p : nat) : methods A (kpx A) := {| m_Reset := Reset_p p; m_Update := @Updatep A; m_Predict := Predict_p p |}.
End Ctor.
