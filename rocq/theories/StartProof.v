(** The temperature ladder (C42) and the starting values (C43, C44). *)
From Coq Require Import Reals List Arith ZArith Bool String Lra Lia.
From Verif Require Import Arith Res ListLemmas Spec Gauss Emb Cx KFModel KFpModel KFpProof CarpackModel EngineModel StartModel EngineSpec EngineProof CholProof RamProof EngineHist EngineClass EngineDriver EngineTop.
Import ListNotations.

Set Implicit Arguments.
Unset Strict Implicit.
Local Open Scope R_scope.

(** ** The ladder *)
Theorem ladder_values n : (2 <= n)%nat ->
  temp_ladder AX n = map (fun i => Fin (exp (INR i / INR (n - 1) * ln 100))) (seq 0 n).
Proof.
  intros Hn. unfold temp_ladder, linspace. change (F AX) with xr. rewrite map_vbuild. unfold vbuild.
  apply map_ext_in. intros i Hi. apply in_seq in Hi.
  assert (0 < INR (n - 1)) as Hp by (apply lt_0_INR; lia).
  change (flog AX (fofZ AX 100)) with (xlog (Fin 100)). rewrite fin_log by lra.
  destruct (Nat.eqb_spec i (n - 1)) as [->|Hne].
  - cbn [fexp AX xexp]. do 2 f_equal. field. lra.
  - cbn [fadd fsub fmul fdiv fofZ fexp AX xsub]. rewrite <- !INR_IZR_INZ. rewrite fin_div by lra. cbn [xmul xadd xexp]. do 2 f_equal. field. lra.
Qed.

Theorem ladder_spec n : (2 <= n)%nat -> exists l : list R, temp_ladder AX n = map Fin l /\ List.length l = n /\
  nth 0 l 0 = 1 /\ nth (n - 1) l 0 = 100 /\ (forall i j, (i < j < n)%nat -> nth i l 0 < nth j l 0).
Proof.
  intros Hn. exists (map (fun i => exp (INR i / INR (n - 1) * ln 100)) (seq 0 n)). split; [rewrite (ladder_values Hn), map_map; reflexivity|].
  split; [rewrite map_length, seq_length; reflexivity|].
  assert (forall i, (i < n)%nat -> nth i (map (fun i => exp (INR i / INR (n - 1) * ln 100)) (seq 0 n)) 0 = exp (INR i / INR (n - 1) * ln 100)) as K.
  { intros i Hi. exact (vbuild_nth (fun i => exp (INR i / INR (n - 1) * ln 100)) 0 Hi). }
  assert (0 < INR (n - 1)) as Hp by (apply lt_0_INR; lia). assert (0 < ln 100) as Hl by (rewrite <- ln_1; apply ln_increasing; lra).
  split; [|split].
  - rewrite K by lia. cbn [INR]. replace (0 / INR (n - 1) * ln 100) with 0 by (field; lra). apply exp_0.
  - rewrite K by lia. replace (INR (n - 1) / INR (n - 1) * ln 100) with (ln 100) by (field; lra). apply exp_ln. lra.
  - intros i j Hij. rewrite !K by lia. apply exp_increasing. apply Rmult_lt_compat_r; [exact Hl|]. apply Rmult_lt_compat_r; [apply Rinv_0_lt_compat, Hp|].
    apply lt_INR. lia.
Qed.
(** one chain: the only temperature is 100 *)
Theorem ladder_one : temp_ladder AX 1 = [Fin 100].
Proof.
  unfold temp_ladder, linspace. cbn [map seq Nat.eqb]. change (flog AX (fofZ AX 100)) with (xlog (Fin 100)). rewrite fin_log by lra.
  cbn. rewrite exp_ln by lra. reflexivity.
Qed.
