(** Property theorems C102-C104: the interactive prompt of src/samplers.cpp. *)
From Coq Require Import List Arith ZArith Lia Bool String Ascii Decimal DecimalString DecimalPos DecimalZ.
From Verif Require Import Arith Res Cx EngineModel RandModel PromptModel.
Import ListNotations.

Local Open Scope Z_scope.
Local Notation length := List.length.

(** ** What the user types *)
(** white space of the C locale *)
Definition blank (c : ascii) : Prop := In (nat_of_ascii c) [9; 10; 11; 12; 13; 32]%nat.
Definition word (w : string) : Prop := w <> ""%string /\ forall c, In c (list_ascii_of_string w) -> ~ blank c.
Definition newline : ascii := "010"%char.
(** each answer ends with the return key *)
Definition typed (ws : list string) : list ascii := flat_map (fun w => list_ascii_of_string w ++ [newline])%list ws.
(** the decimal notation of an integer, by the standard library *)
Definition dec (z : Z) : string := NilZero.string_of_int (Z.to_int z).
(** a character that starts no number *)
Definition no_number (c : ascii) : Prop := ~ (48 <= nat_of_ascii c <= 57)%nat /\ c <> "-"%char /\ c <> "+"%char /\ ~ blank c.

(** ** Reading words and numbers *)
Lemma isspace_blank c : isspace c = true <-> blank c.
Proof.
  unfold isspace, blank. generalize (nat_of_ascii c). intro n. cbn [In]. rewrite orb_true_iff, andb_true_iff, Nat.eqb_eq, !Nat.leb_le. lia.
Qed.
Lemma isspace_not c : ~ blank c -> isspace c = false.
Proof. intro H. destruct (isspace c) eqn:E; [exfalso; apply H; now apply isspace_blank | reflexivity]. Qed.

Lemma skip_blanks bl l : Forall blank bl -> skip_ws (bl ++ l) = skip_ws l.
Proof. induction 1 as [|c bl H _ IH]; [reflexivity|]. simpl. now rewrite (proj2 (isspace_blank c) H). Qed.

Lemma word_split_word w r : (forall c, In c w -> ~ blank c) -> word_split (w ++ newline :: r) = (w, newline :: r).
Proof.
  induction w as [|c w IH]; intro H; [reflexivity|]. simpl. rewrite isspace_not by (apply H; left; reflexivity).
  rewrite IH by (intros x Hx; apply H; right; exact Hx). reflexivity.
Qed.

Lemma word_cons w : word w -> exists c l, list_ascii_of_string w = c :: l /\ ~ blank c.
Proof.
  intros [H H1]. destruct w as [|c w]; [now contradiction H|]. exists c, (list_ascii_of_string w). split; [reflexivity|].
  apply H1. left. reflexivity.
Qed.

Lemma read_word bl w r old : Forall blank bl -> word w ->
  read_str (mkIn (bl ++ list_ascii_of_string w ++ newline :: r) false) old = (w, mkIn (newline :: r) false).
Proof.
  intros Hb Hw. unfold read_str. cbn [failed inp]. rewrite skip_blanks by exact Hb.
  destruct (word_cons _ Hw) as (c & l & E & Hc).
  assert (E1 : skip_ws (list_ascii_of_string w ++ newline :: r) = (list_ascii_of_string w ++ newline :: r)%list).
  { rewrite E. simpl. now rewrite isspace_not. }
  rewrite E1. pose proof (word_split_word _ r (proj2 Hw)) as Q. pose proof (string_of_list_ascii_of_string w) as Q1.
  rewrite E in Q, Q1 |- *. cbn [List.app] in *. rewrite Q, Q1. reflexivity.
Qed.

Lemma digits_acc d : forall p c r, digit c = None ->
  digits (list_ascii_of_string (NilEmpty.string_of_uint d) ++ c :: r) (Zpos p) = (Zpos (Pos.of_uint_acc d p), c :: r).
Proof.
  induction d; intros p c r H; [cbn; rewrite H; reflexivity|..];
  cbn [NilEmpty.string_of_uint list_ascii_of_string List.app digits];
  match goal with |- context [digit ?x] => let v := eval vm_compute in (digit x) in change (digit x) with v end; cbv iota;
  cbn [Pos.of_uint_acc];
  (rewrite <- IHd by exact H); f_equal; rewrite ?Pos2Z.inj_add, ?Pos2Z.inj_mul; lia.
Qed.
Lemma digits_0 d : forall c r, digit c = None ->
  digits (list_ascii_of_string (NilEmpty.string_of_uint d) ++ c :: r) 0 = (Z.of_N (Pos.of_uint d), c :: r).
Proof.
  induction d; intros c r H; [cbn; rewrite H; reflexivity|..];
  cbn [NilEmpty.string_of_uint list_ascii_of_string List.app digits];
  match goal with |- context [digit ?x] => let v := eval vm_compute in (digit x) in change (digit x) with v end; cbv iota;
  cbn [Pos.of_uint]; [apply IHd; exact H|..];
  match goal with |- digits _ ?a = _ => let v := eval vm_compute in a in change a with v end;
  cbn [Z.of_N]; apply digits_acc; exact H.
Qed.

Lemma uint_first d : d <> Nil -> exists c l, list_ascii_of_string (NilEmpty.string_of_uint d) = c :: l /\
  (48 <= nat_of_ascii c <= 57)%nat /\ c <> "-"%char /\ c <> "+"%char.
Proof.
  intro H. destruct d; [now contradiction H|..]; eexists; eexists; (split; [reflexivity|]); vm_compute; repeat split; try lia; discriminate.
Qed.

Lemma digit_none c : ~ (48 <= nat_of_ascii c <= 57)%nat -> digit c = None.
Proof.
  intro H. unfold digit. destruct (Nat.leb 48 (nat_of_ascii c) && Nat.leb (nat_of_ascii c) 57)%bool eqn:E; [|reflexivity].
  apply andb_true_iff in E. rewrite !Nat.leb_le in E. now contradiction H.
Qed.
Lemma digit_some c : (48 <= nat_of_ascii c <= 57)%nat -> exists d, digit c = Some d.
Proof.
  intro H. unfold digit. replace (Nat.leb 48 (nat_of_ascii c) && Nat.leb (nat_of_ascii c) 57)%bool with true; [eexists; reflexivity|].
  symmetry. apply andb_true_iff. now rewrite !Nat.leb_le.
Qed.

Lemma number_uint d neg c r : d <> Nil -> digit c = None ->
  (neg = true -> number ("-"%char :: list_ascii_of_string (NilEmpty.string_of_uint d) ++ c :: r)
                 = (Some (Z.of_N (Pos.of_uint d)), true, c :: r)) /\
  number (list_ascii_of_string (NilEmpty.string_of_uint d) ++ c :: r) = (Some (Z.of_N (Pos.of_uint d)), false, c :: r).
Proof.
  intros Hd Hc. destruct (uint_first _ Hd) as (x & l & E & Hx & Hm & Hp). destruct (digit_some _ Hx) as [dx Edx].
  pose proof (digits_0 d _ r Hc) as Q. unfold number. rewrite E in Q |- *. cbn [List.app] in *. split.
  - intros _. change (Ascii.eqb "-" "-") with true. cbv iota beta. rewrite Edx, Q. reflexivity.
  - rewrite (proj2 (Ascii.eqb_neq _ _) Hm), (proj2 (Ascii.eqb_neq _ _) Hp). cbv iota beta. rewrite Edx, Q. reflexivity.
Qed.

Lemma number_dec z c r : digit c = None ->
  number (list_ascii_of_string (dec z) ++ c :: r) = (Some (Z.abs z), z <? 0, c :: r).
Proof.
  intro Hc. unfold dec, Z.to_int.
  assert (NZ : forall d, d <> Nil -> NilZero.string_of_uint d = NilEmpty.string_of_uint d) by (intros d Hd; destruct d; [now contradiction Hd|..]; reflexivity).
  destruct z as [|p|p].
  - exact (proj2 (number_uint Decimal.zero false c r ltac:(discriminate) Hc)).
  - pose proof (Unsigned.to_uint_nonnil p) as Hd. cbn [NilZero.string_of_int]. rewrite NZ by exact Hd.
    rewrite (proj2 (number_uint _ false c r Hd Hc)). now rewrite Unsigned.of_to.
  - pose proof (Unsigned.to_uint_nonnil p) as Hd. cbn [NilZero.string_of_int]. rewrite NZ by exact Hd.
    cbn [list_ascii_of_string List.app]. rewrite (proj1 (number_uint _ true c r Hd Hc) eq_refl). now rewrite Unsigned.of_to.
Qed.

Lemma dec_first z : exists c l, list_ascii_of_string (dec z) = c :: l /\ ~ blank c.
Proof.
  unfold dec, Z.to_int.
  assert (NZ : forall d, d <> Nil -> NilZero.string_of_uint d = NilEmpty.string_of_uint d) by (intros d Hd; destruct d; [now contradiction Hd|..]; reflexivity).
  assert (B : forall c, (48 <= nat_of_ascii c <= 57)%nat -> ~ blank c) by (intros c Hc Hb; unfold blank in Hb; simpl in Hb; lia).
  destruct z as [|p|p].
  - exists "0"%char, []. split; [reflexivity|]. apply B. vm_compute. lia.
  - pose proof (Unsigned.to_uint_nonnil p) as Hd. cbn [NilZero.string_of_int]. rewrite NZ by exact Hd.
    destruct (uint_first _ Hd) as (c & l & E & Hc & _). exists c, l. split; [exact E | now apply B].
  - exists "-"%char, (list_ascii_of_string (NilZero.string_of_uint (Pos.to_uint p))). split; [reflexivity|].
    intro H. vm_compute in H. repeat (destruct H as [H|H]; [discriminate H|]). exact H.
Qed.

Lemma skip_dec z l : skip_ws (list_ascii_of_string (dec z) ++ l) = (list_ascii_of_string (dec z) ++ l)%list.
Proof. destruct (dec_first z) as (c & l1 & E & Hc). rewrite E. simpl. now rewrite isspace_not. Qed.

Lemma read_dec bl z c r old : Forall blank bl -> int_min <= z <= int_max -> digit c = None ->
  read_int (mkIn (bl ++ list_ascii_of_string (dec z) ++ c :: r) false) old = (Some z, mkIn (c :: r) false).
Proof.
  intros Hb Hz Hc. unfold read_int. cbn [failed inp]. rewrite skip_blanks by exact Hb. rewrite skip_dec.
  pose proof (number_dec z c r Hc) as N. destruct (dec_first z) as (x & l & E & _).
  assert (V : (if z <? 0 then - Z.abs z else Z.abs z) = z) by (destruct (Z.ltb_spec z 0); lia).
  rewrite E in N |- *. cbn [List.app] in *. rewrite N. cbv zeta. rewrite V.
  destruct (Z.ltb_spec z int_min); [unfold int_min in *; lia|]. destruct (Z.ltb_spec int_max z); [unfold int_max in *; lia|]. reflexivity.
Qed.
Lemma read_dec_out bl z c r old : Forall blank bl -> z < int_min \/ int_max < z -> digit c = None ->
  read_int (mkIn (bl ++ list_ascii_of_string (dec z) ++ c :: r) false) old = (Some (if z <? 0 then int_min else int_max), mkIn (c :: r) true).
Proof.
  intros Hb Hz Hc. unfold read_int. cbn [failed inp]. rewrite skip_blanks by exact Hb. rewrite skip_dec.
  pose proof (number_dec z c r Hc) as N. destruct (dec_first z) as (x & l & E & _).
  assert (V : (if z <? 0 then - Z.abs z else Z.abs z) = z) by (destruct (Z.ltb_spec z 0); lia).
  rewrite E in N |- *. cbn [List.app] in *. rewrite N. cbv zeta. rewrite V. unfold int_min, int_max in *.
  destruct (Z.ltb_spec z 0), (Z.ltb_spec z (-2147483648)), (Z.ltb_spec 2147483647 z); try lia; reflexivity.
Qed.
Lemma read_dec_ulong bl z c r old : Forall blank bl -> 0 <= z <= ulong_max -> digit c = None ->
  read_ulong (mkIn (bl ++ list_ascii_of_string (dec z) ++ c :: r) false) old = (Some z, mkIn (c :: r) false).
Proof.
  intros Hb Hz Hc. unfold read_ulong. cbn [failed inp]. rewrite skip_blanks by exact Hb. rewrite skip_dec.
  pose proof (number_dec z c r Hc) as N. destruct (dec_first z) as (x & l & E & _).
  rewrite E in N |- *. cbn [List.app] in *. rewrite N. replace (z <? 0) with false by (symmetry; apply Z.ltb_ge; lia).
  rewrite (Z.abs_eq z) by lia. destruct (Z.ltb_spec ulong_max z); [lia|]. rewrite Z.mod_small by lia. reflexivity.
Qed.
Lemma read_junk bl w r old : Forall blank bl -> word w -> (forall c, hd_error (list_ascii_of_string w) = Some c -> no_number c) ->
  exists l, read_int (mkIn (bl ++ list_ascii_of_string w ++ r) false) old = (Some 0, mkIn l true).
Proof.
  intros Hb Hw H. unfold read_int. cbn [failed inp]. rewrite skip_blanks by exact Hb.
  destruct (word_cons _ Hw) as (c & l & E & Hc). rewrite E in H |- *. destruct (H c eq_refl) as (Hd & Hm & Hp & _).
  simpl. rewrite isspace_not by exact Hc. unfold number.
  rewrite (proj2 (Ascii.eqb_neq _ _) Hm), (proj2 (Ascii.eqb_neq _ _) Hp). cbv iota beta. rewrite (digit_none _ Hd).
  eexists. reflexivity.
Qed.

Lemma blank_newline : Forall blank [newline].
Proof. constructor; [|constructor]. vm_compute. tauto. Qed.
Lemma digit_newline : digit newline = None.
Proof. reflexivity. Qed.
Lemma typed_cons w ws r : (typed (w :: ws) ++ r = list_ascii_of_string w ++ newline :: typed ws ++ r)%list.
Proof. unfold typed. simpl. now rewrite <- !app_assoc. Qed.
Lemma typed_app ws vs r : (typed (ws ++ vs) ++ r = typed ws ++ typed vs ++ r)%list.
Proof. unfold typed. now rewrite flat_map_app, <- app_assoc. Qed.

(** ** The loops *)
Section Loops.
Variables (text : Type) (empty : text) (may_read may_write : string -> bool).
Local Notation files := (files text).
Local Notation ask_data := (ask_data may_read).
Local Notation ask_out := (ask_out empty may_write).
Variable dir : string.

(** the file [dir]/[name] exists and can be opened *)
Definition readable (fs : files) (name : string) : Prop := fs (dir ++ "/" ++ name)%string <> None /\ may_read (dir ++ "/" ++ name)%string = true.

Lemma read_from_file_true fs name : readable fs name <-> read_from_file may_read (in_dir dir name) fs = true.
Proof.
  unfold readable, read_from_file, in_dir. destruct (fs (dir ++ "/" ++ name)%string); split; [intros [_ H]; exact H | intro H; split; [discriminate|exact H] | intros [H _]; now contradiction H | discriminate].
Qed.
Lemma read_from_file_false fs name : ~ readable fs name -> read_from_file may_read (in_dir dir name) fs = false.
Proof. intro H. destruct (read_from_file may_read (in_dir dir name) fs) eqn:E; [exfalso; apply H; now apply read_from_file_true | reflexivity]. Qed.

Lemma ask_data_typed fs bad : forall fuel bl d r, Forall blank bl ->
  (forall w, In w bad -> word w /\ ~ readable fs w) -> word d -> readable fs d ->
  ask_data fuel dir fs (mkIn (bl ++ typed (bad ++ [d]) ++ r) false)
  = if (List.length bad <? fuel)%nat then Ok (dir ++ "/" ++ d, mkIn (newline :: r) false)%string else Diverge.
Proof.
  induction bad as [|w bad IH]; intros fuel bl d r Hb Hbad Hd Hr; (destruct fuel as [|fuel]; [reflexivity|]);
  cbn [List.app]; rewrite typed_cons; cbn [PromptModel.ask_data].
  - rewrite read_word by assumption. rewrite (proj1 (read_from_file_true fs d) Hr). reflexivity.
  - destruct (Hbad w (or_introl eq_refl)) as [Hw Hn]. rewrite read_word by assumption.
    rewrite read_from_file_false by exact Hn.
    apply (IH fuel [newline]); [apply blank_newline | | exact Hd | exact Hr]. intros v Hv. apply Hbad. now right.
Qed.

Definition emptied (fs : files) (name : string) : files := fun n => if String.eqb n name then Some empty else fs n.

Lemma ask_out_typed bad : forall fs fuel bl d r, Forall blank bl ->
  (forall w, In w bad -> word w /\ may_write (dir ++ "/" ++ w)%string = false) -> word d -> may_write (dir ++ "/" ++ d)%string = true ->
  ask_out fuel dir fs (mkIn (bl ++ typed (bad ++ [d]) ++ r) false)
  = if (List.length bad <? fuel)%nat then Ok (dir ++ "/" ++ d, emptied fs (dir ++ "/" ++ d), mkIn (newline :: r) false)%string else Diverge.
Proof.
  induction bad as [|w bad IH]; intros fs fuel bl d r Hb Hbad Hd Hr; (destruct fuel as [|fuel]; [reflexivity|]);
  cbn [List.app]; rewrite typed_cons; cbn [PromptModel.ask_out]; unfold write_to_file, in_dir.
  - rewrite read_word by assumption. rewrite Hr. reflexivity.
  - destruct (Hbad w (or_introl eq_refl)) as [Hw Hn]. rewrite read_word by assumption. rewrite Hn.
    apply (IH fs fuel [newline]); [apply blank_newline | | exact Hd | exact Hr]. intros v Hv. apply Hbad. now right.
Qed.

Lemma ask_int_typed lo bad : forall fuel bl n old c r, Forall blank bl -> digit c = None ->
  (forall z, In z bad -> int_min <= z < lo) -> lo <= n <= int_max -> int_min <= n ->
  ask_int fuel lo old (mkIn (bl ++ typed (map dec bad) ++ list_ascii_of_string (dec n) ++ c :: r) false)
  = if (List.length bad <? fuel)%nat then Ok (n, mkIn (c :: r) false) else Diverge.
Proof.
  induction bad as [|z bad IH]; intros fuel bl n old c r Hb Hc Hbad Hn Hm; (destruct fuel as [|fuel]; [reflexivity|]);
  cbn [map]; [cbn [typed flat_map List.app] | rewrite typed_cons]; cbn [PromptModel.ask_int].
  - rewrite read_dec by (assumption || lia). destruct (Z.ltb_spec n lo); [lia|reflexivity].
  - pose proof (Hbad z (or_introl eq_refl)) as Hz. rewrite read_dec by (assumption || lia || reflexivity).
    destruct (Z.ltb_spec z lo); [|lia].
    apply (IH fuel [newline]); [apply blank_newline | exact Hc | | exact Hn | exact Hm]. intros v Hv. apply Hbad. now right.
Qed.

(** a stream that has failed is never read again *)
Lemma ask_int_stuck fuel lo z s : failed s = true -> z < lo -> ask_int fuel lo (Some z) s = Diverge.
Proof.
  intros Hs Hz. induction fuel as [|fuel IH]; [reflexivity|]. cbn [PromptModel.ask_int]. unfold read_int at 1. rewrite Hs.
  destruct (Z.ltb_spec z lo); [exact IH|lia].
Qed.

Lemma ask_int_junk lo bad : forall fuel bl w old r, Forall blank bl -> word w ->
  (forall c, hd_error (list_ascii_of_string w) = Some c -> no_number c) ->
  (forall z, In z bad -> int_min <= z < lo) -> lo <= int_max -> 
  ask_int fuel lo old (mkIn (bl ++ typed (map dec bad) ++ list_ascii_of_string w ++ r) false) = Diverge \/
  (lo <= 0 /\ exists l, ask_int fuel lo old (mkIn (bl ++ typed (map dec bad) ++ list_ascii_of_string w ++ r) false) = Ok (0, mkIn l true)).
Proof.
  induction bad as [|z bad IH]; intros fuel bl w old r Hb Hw Hj Hbad Hn; (destruct fuel as [|fuel]; [left; reflexivity|]);
  cbn [map]; [cbn [typed flat_map List.app] | rewrite typed_cons]; cbn [PromptModel.ask_int].
  - destruct (read_junk bl w r old Hb Hw Hj) as [l E]. rewrite E. destruct (Z.ltb_spec 0 lo).
    + left. apply ask_int_stuck; [reflexivity | exact H].
    + right. split; [exact H|]. exists l. reflexivity.
  - pose proof (Hbad z (or_introl eq_refl)) as Hz. rewrite read_dec by (assumption || lia || reflexivity).
    destruct (Z.ltb_spec z lo); [|lia].
    apply (IH fuel [newline]); [apply blank_newline | exact Hw | exact Hj | | exact Hn]. intros v Hv. apply Hbad. now right.
Qed.

(** a number that does not fit in an int, after answers that were rejected *)
Lemma ask_int_out lo bad : forall fuel bl n old c r, Forall blank bl -> digit c = None ->
  (forall z, In z bad -> int_min <= z < lo) -> lo <= int_max -> int_min < lo -> n < int_min \/ int_max < n ->
  ask_int fuel lo old (mkIn (bl ++ typed (map dec bad) ++ list_ascii_of_string (dec n) ++ c :: r) false)
  = if (0 <? n) && (List.length bad <? fuel)%nat then Ok (int_max, mkIn (c :: r) true) else Diverge.
Proof.
  induction bad as [|z bad IH]; intros fuel bl n old c r Hb Hc Hbad Hlo Hlo' Hn; (destruct fuel as [|fuel]; [now rewrite andb_false_r|]);
  cbn [map]; [cbn [typed flat_map List.app] | rewrite typed_cons]; cbn [PromptModel.ask_int].
  - rewrite read_dec_out by assumption. cbn [List.length]. rewrite andb_true_r.
    destruct (Z.ltb_spec n 0), (Z.ltb_spec 0 n); try (unfold int_min, int_max in *; lia).
    + destruct (Z.ltb_spec int_min lo); [|lia]. now apply ask_int_stuck.
    + destruct (Z.ltb_spec int_max lo); [lia|reflexivity].
  - pose proof (Hbad z (or_introl eq_refl)) as Hz. rewrite read_dec by (assumption || lia || reflexivity).
    destruct (Z.ltb_spec z lo); [|lia].
    apply (IH fuel [newline]); [apply blank_newline | exact Hc | | exact Hlo | exact Hlo' | exact Hn]. intros v Hv. apply Hbad. now right.
Qed.
End Loops.

(** ** C102 *)
Section C102.
Variables (A : Arith) (R : rng A) (text : Type) (empty : text) (read : text -> Gb R -> Gb R) (may_read may_write : string -> bool).
Local Notation prompt := (mcmc_options_prompt (R := R) empty read may_read may_write).

(** C102: whatever is typed, the options that are returned are usable, and only the output file has changed *)
Theorem C102_usable fuel dir now fs g s o fs' g' s' :
  prompt fuel dir now fs g s = Ok (o, fs', g', s') ->
  1 <= sample_size o /\ 1 <= thin o /\ 0 <= burnin o /\ chains o = 1 /\
  fs (data_file o) <> None /\ may_read (data_file o) = true /\ may_write (out_file o) = true /\
  fs' (out_file o) = Some empty /\ (forall n, n <> out_file o -> fs' n = fs n) /\
  snd g' = snd g.
Proof.
  assert (D : forall fuel s p s1, ask_data may_read fuel dir fs s = Ok (p, s1) -> read_from_file may_read p fs = true).
  { clear. intro fuel. induction fuel as [|fuel IH]; intros s p s1; [discriminate|]. cbn [ask_data].
    destruct (read_str s "") as [name s2]. destruct (read_from_file may_read (in_dir dir name) fs) eqn:E; [|apply IH].
    intro H. injection H as <- _. exact E. }
  assert (O : forall fuel fs s p fs1 s1, ask_out empty may_write fuel dir fs s = Ok (p, fs1, s1) ->
            may_write p = true /\ fs1 = emptied text empty fs p).
  { clear. intro fuel. induction fuel as [|fuel IH]; intros fs s p fs1 s1; [discriminate|]. cbn [ask_out].
    destruct (read_str s " ") as [name s2]. unfold write_to_file. destruct (may_write (in_dir dir name)) eqn:E; [|apply IH].
    intro H. injection H as <- <- _. split; [exact E|reflexivity]. }
  assert (I : forall fuel lo v s z s1, ask_int fuel lo v s = Ok (z, s1) -> lo <= z).
  { clear. intro fuel. induction fuel as [|fuel IH]; intros lo v s z s1; [discriminate|]. cbn [ask_int].
    destruct (read_int s v) as [[x|] s2]; [|discriminate]. destruct (Z.ltb_spec x lo); [apply IH|].
    intro H1. injection H1 as <- _. exact H. }
  unfold mcmc_options_prompt. intro H.
  destruct (ask_data may_read fuel dir fs s) as [[data s1]|e| |] eqn:E1; try discriminate H. cbn [bind] in H.
  destruct (ask_out empty may_write fuel dir fs s1) as [[[out fs1] s2]|e| |] eqn:E2; try discriminate H. cbn [bind] in H.
  destruct (ask_int fuel 1 None s2) as [[n s3]|e| |] eqn:E3; try discriminate H. cbn [bind] in H.
  destruct (ask_int fuel 1 None s3) as [[th s4]|e| |] eqn:E4; try discriminate H. cbn [bind] in H.
  destruct (ask_int fuel 0 None s4) as [[b s5]|e| |] eqn:E5; try discriminate H. cbn [bind] in H.
  destruct (read_ulong s5 None) as [[sd|] s6]; [|discriminate H]. injection H as <- <- <- <-. cbn [sample_size thin burnin chains data_file out_file].
  apply D in E1. apply O in E2. destruct E2 as [W ->]. apply I in E3. apply I in E4. apply I in E5.
  unfold read_from_file in E1. destruct (fs data) eqn:Ed; [|discriminate E1].
  split; [exact E3|]. split; [exact E4|]. split; [exact E5|]. split; [reflexivity|]. split; [discriminate|]. split; [exact E1|].
  split; [exact W|]. unfold emptied. rewrite String.eqb_refl. split; [reflexivity|]. split.
  - intros m Hm. apply String.eqb_neq in Hm. now rewrite Hm.
  - unfold set_seed. destruct (sd =? 0); [reflexivity|]. destruct (sd =? 1); [|reflexivity].
    destruct (read_from_file may_read (in_dir dir "seed.txt") _); [|reflexivity].
    unfold RecoverSeed. destruct (if (in_dir dir "seed.txt" =? out)%string then _ else _); reflexivity.
Qed.

(** what the user types before the numbers: names that cannot be opened, then one that can *)
Record names (dir : string) (fs : files text) (bad_d : list string) (d : string) (bad_o : list string) (o : string) : Prop := {
  n_bad_d : forall w, In w bad_d -> word w /\ ~ readable text may_read dir fs w;
  n_d : word d /\ readable text may_read dir fs d;
  n_bad_o : forall w, In w bad_o -> word w /\ may_write (dir ++ "/" ++ w)%string = false;
  n_o : word o /\ may_write (dir ++ "/" ++ o)%string = true }.
(** numbers that are too small, then one that is not *)
Definition tries (lo : Z) (bad : list Z) (n : Z) : Prop :=
  (forall z, In z bad -> -2147483648 <= z < lo) /\ lo <= n <= 2147483647.

(** C102: each question is repeated until the answer can be used, and the options are the last answers *)
Theorem C102_answers dir now fs g fuel bad_d d bad_o o ns n ths th bs b seed rest :
  names dir fs bad_d d bad_o o -> tries 1 ns n -> tries 1 ths th -> tries 0 bs b -> 0 <= seed <= 18446744073709551615 ->
  (List.length bad_d < fuel /\ List.length bad_o < fuel /\ List.length ns < fuel /\ List.length ths < fuel /\ List.length bs < fuel)%nat ->
  let answers := (bad_d ++ [d] ++ bad_o ++ [o] ++ map dec ns ++ [dec n] ++ map dec ths ++ [dec th] ++ map dec bs ++ [dec b] ++ [dec seed])%list in
  exists fs' g',
  prompt fuel dir now fs g (mkIn (typed answers ++ rest) false)
  = Ok (mkOptions n th b 1 (dir ++ "/" ++ d) (dir ++ "/" ++ o), fs', g', mkIn (newline :: rest) false)%string /\
  (seed = 0 -> fst g' = b_seed R now) /\
  (1 < seed -> fst g' = b_seed R seed) /\
  (seed = 1 -> ~ readable text may_read dir fs' "seed.txt" -> fst g' = b_seed R now) /\
  (seed = 1 -> may_read (dir ++ "/seed.txt")%string = true -> forall t, fs' (dir ++ "/seed.txt")%string = Some t -> fst g' = read t (fst g)).
Proof.
  intros [Hbd [Hd Hrd] Hbo [Ho Hwo]] [Hns Hn] [Hths Hth] [Hbs Hb] Hs (F1 & F2 & F3 & F4 & F5). cbv zeta.
  apply Nat.ltb_lt in F1. apply Nat.ltb_lt in F2. apply Nat.ltb_lt in F3. apply Nat.ltb_lt in F4. apply Nat.ltb_lt in F5.
  exists (emptied text empty fs (dir ++ "/" ++ o)%string), (set_seed read may_read dir now seed (emptied text empty fs (dir ++ "/" ++ o)%string) g).
  split.
  - rewrite (app_assoc bad_d), (app_assoc bad_o). unfold mcmc_options_prompt.
    rewrite (typed_app (bad_d ++ [d])), (typed_app (bad_o ++ [o])), (typed_app (map dec ns)). cbn [List.app].
    match goal with |- context [mkIn ?l false] => change l with ([] ++ l)%list end.
    rewrite (ask_data_typed text may_read dir fs bad_d fuel [] d _ (Forall_nil _) Hbd Hd Hrd). rewrite F1. cbn [bind].
    match goal with |- context [mkIn (newline :: ?l) false] => change (newline :: l) with ([newline] ++ l)%list end.
    rewrite (ask_out_typed text empty may_write dir bad_o fs fuel [newline] o _ blank_newline Hbo Ho Hwo). rewrite F2. cbn [bind].
    rewrite typed_cons.
    match goal with |- context [mkIn (newline :: ?l) false] => change (newline :: l) with ([newline] ++ l)%list end.
    rewrite (ask_int_typed 1 ns fuel [newline] n None newline _ blank_newline digit_newline Hns Hn ltac:(unfold int_min; lia)). rewrite F3. cbn [bind].
    rewrite (typed_app (map dec ths)), typed_cons.
    match goal with |- context [mkIn (newline :: ?l) false] => change (newline :: l) with ([newline] ++ l)%list end.
    rewrite (ask_int_typed 1 ths fuel [newline] th None newline _ blank_newline digit_newline Hths Hth ltac:(unfold int_min; lia)). rewrite F4. cbn [bind].
    rewrite (typed_app (map dec bs)), typed_cons.
    match goal with |- context [mkIn (newline :: ?l) false] => change (newline :: l) with ([newline] ++ l)%list end.
    rewrite (ask_int_typed 0 bs fuel [newline] b None newline _ blank_newline digit_newline Hbs Hb ltac:(unfold int_min; lia)). rewrite F5. cbn [bind].
    rewrite typed_cons. cbn [typed flat_map]. cbn [List.app].
    match goal with |- context [mkIn (newline :: ?l) false] => change (newline :: l) with ([newline] ++ l)%list end.
    rewrite (read_dec_ulong [newline] seed newline rest None blank_newline Hs digit_newline). reflexivity.
  - unfold set_seed. split; [|split; [|split]].
    + intros ->. reflexivity.
    + intro H. destruct (Z.eqb_spec seed 0); [lia|]. destruct (Z.eqb_spec seed 1); [lia|]. reflexivity.
    + intros -> H. change (1 =? 0) with false. change (1 =? 1) with true. cbv iota.
      rewrite (read_from_file_false text may_read dir _ "seed.txt" H). reflexivity.
    + intros -> H t Ht. change (1 =? 0) with false. change (1 =? 1) with true. cbv iota.
      unfold read_from_file, RecoverSeed, in_dir. change ("/" ++ "seed.txt")%string with "/seed.txt"%string. rewrite Ht, H. reflexivity.
Qed.
End C102.
Print Assumptions C102_usable.
Print Assumptions C102_answers.

(** ** C103: a mistyped number *)
Lemma ask_int_junk0 bad : forall fuel bl w old r, Forall blank bl -> word w ->
  (forall c, hd_error (list_ascii_of_string w) = Some c -> no_number c) ->
  (forall z, In z bad -> int_min <= z < 0) ->
  exists l, ask_int fuel 0 old (mkIn (bl ++ typed (map dec bad) ++ list_ascii_of_string w ++ r) false)
  = if (List.length bad <? fuel)%nat then Ok (0, mkIn l true) else Diverge.
Proof.
  induction bad as [|z bad IH]; intros fuel bl w old r Hb Hw Hj Hbad; (destruct fuel as [|fuel]; [exists []; reflexivity|]);
  cbn [map]; [cbn [typed flat_map List.app] | rewrite typed_cons]; cbn [PromptModel.ask_int].
  - destruct (read_junk bl w r old Hb Hw Hj) as [l E]. rewrite E. exists l. reflexivity.
  - pose proof (Hbad z (or_introl eq_refl)) as Hz. rewrite read_dec by (assumption || (unfold int_min, int_max in *; lia) || reflexivity).
    destruct (Z.ltb_spec z 0); [|lia].
    apply (IH fuel [newline]); [apply blank_newline | exact Hw | exact Hj |]. intros v Hv. apply Hbad. now right.
Qed.

Section C103.
Variables (A : Arith) (R : rng A) (text : Type) (empty : text) (read : text -> Gb R -> Gb R) (may_read may_write : string -> bool).
Local Notation prompt := (mcmc_options_prompt (R := R) empty read may_read may_write).
Variables (dir : string) (now : Z) (fs : files text) (g : gen R) (bad_d : list string) (d : string) (bad_o : list string) (o : string).
Hypothesis Hnames : names text may_read may_write dir fs bad_d d bad_o o.
(** the answer [w] does not start like a number *)
Definition mistyped (w : string) : Prop := word w /\ forall c, hd_error (list_ascii_of_string w) = Some c -> no_number c.

Lemma prompt_numbers fuel l :
  prompt fuel dir now fs g (mkIn (typed (bad_d ++ [d] ++ bad_o ++ [o]) ++ l) false)
  = if (List.length bad_d <? fuel)%nat && (List.length bad_o <? fuel)%nat then
      '(n, s3) <- ask_int fuel 1 None (mkIn ([newline] ++ l) false) ;;
      '(th, s4) <- ask_int fuel 1 None s3 ;;
      '(b, s5) <- ask_int fuel 0 None s4 ;;
      let (seed, s6) := read_ulong s5 None in
      match seed with
      | None => UB
      | Some sd => Ok (mkOptions n th b 1 (dir ++ "/" ++ d) (dir ++ "/" ++ o), emptied text empty fs (dir ++ "/" ++ o)%string,
                       set_seed read may_read dir now sd (emptied text empty fs (dir ++ "/" ++ o)%string) g, s6)%string
      end
    else Diverge.
Proof.
  destruct Hnames as [Hbd [Hd Hrd] Hbo [Ho Hwo]].
  rewrite (app_assoc bad_d), typed_app. unfold mcmc_options_prompt.
  match goal with |- context [mkIn ?l false] => change l with ([] ++ l)%list end.
  rewrite (ask_data_typed text may_read dir fs bad_d fuel [] d _ (Forall_nil _) Hbd Hd Hrd).
  destruct (Nat.ltb (List.length bad_d) fuel); [|reflexivity]. cbn [bind].
  match goal with |- context [mkIn (newline :: ?l) false] => change (newline :: l) with ([newline] ++ l)%list end.
  rewrite (ask_out_typed text empty may_write dir bad_o fs fuel [newline] o _ blank_newline Hbo Ho Hwo).
  destruct (Nat.ltb (List.length bad_o) fuel); reflexivity.
Qed.

(** at the question for the sample size: the prompt never returns *)
Theorem C103_sample_size ns w rest fuel :
  (forall z, In z ns -> -2147483648 <= z < 1) -> mistyped w ->
  prompt fuel dir now fs g (mkIn (typed (bad_d ++ [d] ++ bad_o ++ [o]) ++ typed (map dec ns) ++ list_ascii_of_string w ++ rest) false) = Diverge.
Proof.
  intros Hns [Hw Hj]. rewrite prompt_numbers. destruct (_ && _)%bool; [|reflexivity].
  destruct (ask_int_junk 1 ns fuel [newline] w None rest blank_newline Hw Hj Hns ltac:(unfold int_max; lia)) as [-> | [H _]]; [reflexivity|lia].
Qed.

(** at the question for the thinning interval: the prompt never returns *)
Theorem C103_thin ns n ths w rest fuel :
  tries 1 ns n -> (forall z, In z ths -> -2147483648 <= z < 1) -> mistyped w ->
  prompt fuel dir now fs g (mkIn (typed (bad_d ++ [d] ++ bad_o ++ [o]) ++ typed (map dec ns) ++ typed [dec n] ++ typed (map dec ths) ++ list_ascii_of_string w ++ rest) false) = Diverge.
Proof.
  intros [Hns Hn] Hths [Hw Hj]. rewrite prompt_numbers. destruct (_ && _)%bool; [|reflexivity].
  rewrite typed_cons.
  rewrite (ask_int_typed 1 ns fuel [newline] n None newline _ blank_newline digit_newline Hns Hn ltac:(unfold int_min; lia)).
  destruct (Nat.ltb (List.length ns) fuel); [|reflexivity]. cbn [bind].
  change (typed [])%list with (@nil ascii). cbn [List.app].
  match goal with |- context [mkIn (newline :: ?l) false] => change (newline :: l) with ([newline] ++ l)%list end.
  destruct (ask_int_junk 1 ths fuel [newline] w None rest blank_newline Hw Hj Hths ltac:(unfold int_max; lia)) as [E | [H _]]; [|lia].
  rewrite E. reflexivity.
Qed.

(** a sample size such as 1e4, 10.5 or 10,000: the rest of the word answers the next question, and the prompt never returns *)
Theorem C103_exponent ns n c rest fuel :
  tries 1 ns n -> no_number c ->
  prompt fuel dir now fs g (mkIn (typed (bad_d ++ [d] ++ bad_o ++ [o]) ++ typed (map dec ns) ++ list_ascii_of_string (dec n) ++ c :: rest) false) = Diverge.
Proof.
  intros [Hns Hn] Hc. rewrite prompt_numbers. destruct (_ && _)%bool; [|reflexivity].
  rewrite (ask_int_typed 1 ns fuel [newline] n None c _ blank_newline (digit_none c (proj1 Hc)) Hns Hn ltac:(unfold int_min; lia)).
  destruct (Nat.ltb (List.length ns) fuel); [|reflexivity]. cbn [bind].
  assert (Hw : word (String c "")).
  { split; [discriminate|]. intros x [<- | []]. exact (proj2 (proj2 (proj2 Hc))). }
  destruct (ask_int_junk 1 [] fuel [] (String c "") None rest (Forall_nil _) Hw) as [E | [H _]].
  - intros x Hx. injection Hx as <-. exact Hc.
  - intros z [].
  - unfold int_max. lia.
  - cbn [map typed flat_map list_ascii_of_string List.app] in E. rewrite E. reflexivity.
  - lia.
Qed.

(** at the question for the burn-in: the answer 0 is assumed, the seed is never read, and the prompt uses a variable that was
    never assigned *)
Theorem C103_burnin ns n ths th bs w rest fuel :
  tries 1 ns n -> tries 1 ths th -> (forall z, In z bs -> -2147483648 <= z < 0) -> mistyped w ->
  let run := prompt fuel dir now fs g (mkIn (typed (bad_d ++ [d] ++ bad_o ++ [o]) ++ typed (map dec ns) ++ typed [dec n] ++ typed (map dec ths) ++ typed [dec th]
                               ++ typed (map dec bs) ++ list_ascii_of_string w ++ rest) false) in
  run = UB \/ (run = Diverge /\ exists k, (fuel <= k)%nat /\ In k (map (@List.length Z) [ns; ths; bs] ++ map (@List.length string) [bad_d; bad_o])).
Proof.
  intros [Hns Hn] [Hths Hth] Hbs [Hw Hj]. cbv zeta. rewrite prompt_numbers.
  destruct (Nat.ltb_spec (List.length bad_d) fuel) as [_|L]; [|right; split; [reflexivity|]; exists (List.length bad_d); split; [exact L|]; simpl; tauto].
  destruct (Nat.ltb_spec (List.length bad_o) fuel) as [_|L]; [|right; split; [reflexivity|]; exists (List.length bad_o); split; [exact L|]; simpl; tauto].
  cbn [andb]. rewrite typed_cons.
  rewrite (ask_int_typed 1 ns fuel [newline] n None newline _ blank_newline digit_newline Hns Hn ltac:(unfold int_min; lia)).
  destruct (Nat.ltb_spec (List.length ns) fuel) as [_|L]; [|right; split; [reflexivity|]; exists (List.length ns); split; [exact L|]; simpl; tauto].
  cbn [bind]. 
  match goal with |- context [mkIn (newline :: ?l) false] => change (newline :: l) with ([newline] ++ l)%list end.
  change (typed [])%list with (@nil ascii). cbn [List.app]. rewrite typed_cons.
  match goal with |- context [mkIn (newline :: ?l) false] => change (newline :: l) with ([newline] ++ l)%list end.
  rewrite (ask_int_typed 1 ths fuel [newline] th None newline _ blank_newline digit_newline Hths Hth ltac:(unfold int_min; lia)).
  destruct (Nat.ltb_spec (List.length ths) fuel) as [_|L]; [|right; split; [reflexivity|]; exists (List.length ths); split; [exact L|]; simpl; tauto].
  cbn [bind]. 
  change (typed [])%list with (@nil ascii). cbn [List.app].
  match goal with |- context [mkIn (newline :: ?l) false] => change (newline :: l) with ([newline] ++ l)%list end.
  destruct (ask_int_junk0 bs fuel [newline] w None rest blank_newline Hw Hj Hbs) as [l E]. rewrite E.
  destruct (Nat.ltb_spec (List.length bs) fuel) as [_|L]; [|right; split; [reflexivity|]; exists (List.length bs); split; [exact L|]; simpl; tauto].
  left. reflexivity.
Qed.

(** an answer below the range of an int, at any of the three questions: the prompt never returns; one above that range: the largest
    int is taken, nothing is read any more, and the prompt uses a variable that was never assigned *)
Theorem C103_range_size ns m rest fuel :
  (forall z, In z ns -> -2147483648 <= z < 1) ->
  let run := prompt fuel dir now fs g (mkIn (typed (bad_d ++ [d] ++ bad_o ++ [o]) ++ typed (map dec ns) ++ list_ascii_of_string (dec m) ++ newline :: rest) false) in
  (m < -2147483648 -> run = Diverge) /\
  (2147483647 < m -> run = UB \/ (run = Diverge /\ exists k, (fuel <= k)%nat /\ In k (map (@List.length Z) [ns] ++ map (@List.length string) [bad_d; bad_o]))).
Proof.
  intro Hns. cbv zeta. rewrite prompt_numbers.
  assert (G : forall X : m < int_min \/ int_max < m, _) by
    exact (ask_int_out 1 ns fuel [newline] m None newline rest blank_newline digit_newline Hns ltac:(unfold int_max; lia) ltac:(unfold int_min; lia)).
  split; intro Hm.
  - destruct ((List.length bad_d <? fuel)%nat && (List.length bad_o <? fuel)%nat); [|reflexivity]. rewrite G by (left; exact Hm). destruct (Z.ltb_spec 0 m); [lia|]. reflexivity.
  - rewrite G by (right; exact Hm). destruct (Z.ltb_spec 0 m); [|lia].
    destruct (Nat.ltb_spec (List.length bad_d) fuel) as [_|L]; [|right; split; [reflexivity|]; exists (List.length bad_d); split; [exact L|]; simpl; tauto].
    destruct (Nat.ltb_spec (List.length bad_o) fuel) as [_|L]; [|right; split; [reflexivity|]; exists (List.length bad_o); split; [exact L|]; simpl; tauto].
    destruct (Nat.ltb_spec (List.length ns) fuel) as [U|L]; [|right; split; [reflexivity|]; exists (List.length ns); split; [exact L|]; simpl; tauto].
    left. destruct fuel; [exfalso; clear - U; lia|reflexivity].
Qed.

Theorem C103_range_thin ns n ths m rest fuel :
  tries 1 ns n -> (forall z, In z ths -> -2147483648 <= z < 1) ->
  let run := prompt fuel dir now fs g (mkIn (typed (bad_d ++ [d] ++ bad_o ++ [o]) ++ typed (map dec ns) ++ typed [dec n] ++ typed (map dec ths)
                               ++ list_ascii_of_string (dec m) ++ newline :: rest) false) in
  (m < -2147483648 -> run = Diverge) /\
  (2147483647 < m -> run = UB \/ (run = Diverge /\ exists k, (fuel <= k)%nat /\ In k (map (@List.length Z) [ns; ths] ++ map (@List.length string) [bad_d; bad_o]))).
Proof.
  intros [Hns Hn] Hths. cbv zeta. rewrite prompt_numbers, typed_cons.
  rewrite (ask_int_typed 1 ns fuel [newline] n None newline _ blank_newline digit_newline Hns Hn ltac:(unfold int_min; lia)).
  change (typed [])%list with (@nil ascii). cbn [List.app].
  assert (G : forall X : m < int_min \/ int_max < m, _) by
    exact (ask_int_out 1 ths fuel [newline] m None newline rest blank_newline digit_newline Hths ltac:(unfold int_max; lia) ltac:(unfold int_min; lia)).
  cbn [List.app] in G. split; intro Hm.
  - destruct ((List.length bad_d <? fuel)%nat && (List.length bad_o <? fuel)%nat); [|reflexivity]. destruct (Nat.ltb (List.length ns) fuel); [|reflexivity]. cbn [bind].
    rewrite G by (left; exact Hm). destruct (Z.ltb_spec 0 m); [lia|]. reflexivity.
  - destruct (Nat.ltb_spec (List.length bad_d) fuel) as [_|L]; [|right; split; [reflexivity|]; exists (List.length bad_d); split; [exact L|]; simpl; tauto].
    destruct (Nat.ltb_spec (List.length bad_o) fuel) as [_|L]; [|right; split; [reflexivity|]; exists (List.length bad_o); split; [exact L|]; simpl; tauto].
    destruct (Nat.ltb_spec (List.length ns) fuel) as [_|L]; [|right; split; [reflexivity|]; exists (List.length ns); split; [exact L|]; simpl; tauto].
    cbn [andb bind]. rewrite G by (right; exact Hm). destruct (Z.ltb_spec 0 m); [|lia].
    destruct (Nat.ltb_spec (List.length ths) fuel) as [U|L]; [|right; split; [reflexivity|]; exists (List.length ths); split; [exact L|]; simpl; tauto].
    left. destruct fuel; [exfalso; clear - U; lia|reflexivity].
Qed.

Theorem C103_range_burnin ns n ths th bs m rest fuel :
  tries 1 ns n -> tries 1 ths th -> (forall z, In z bs -> -2147483648 <= z < 0) ->
  let run := prompt fuel dir now fs g (mkIn (typed (bad_d ++ [d] ++ bad_o ++ [o]) ++ typed (map dec ns) ++ typed [dec n] ++ typed (map dec ths) ++ typed [dec th]
                               ++ typed (map dec bs) ++ list_ascii_of_string (dec m) ++ newline :: rest) false) in
  (m < -2147483648 -> run = Diverge) /\
  (2147483647 < m -> run = UB \/ (run = Diverge /\ exists k, (fuel <= k)%nat /\ In k (map (@List.length Z) [ns; ths; bs] ++ map (@List.length string) [bad_d; bad_o]))).
Proof.
  intros [Hns Hn] [Hths Hth] Hbs. cbv zeta. rewrite prompt_numbers, typed_cons.
  rewrite (ask_int_typed 1 ns fuel [newline] n None newline _ blank_newline digit_newline Hns Hn ltac:(unfold int_min; lia)).
  change (typed [])%list with (@nil ascii). cbn [List.app]. rewrite typed_cons.
  change (typed [])%list with (@nil ascii). cbn [List.app].
  assert (H1 : forall r, _) by
    exact (fun r => ask_int_typed 1 ths fuel [newline] th None newline r blank_newline digit_newline Hths Hth ltac:(unfold int_min; lia)).
  cbn [List.app] in H1.
  assert (G : forall X : m < int_min \/ int_max < m, _) by
    exact (ask_int_out 0 bs fuel [newline] m None newline rest blank_newline digit_newline Hbs ltac:(unfold int_max; lia) ltac:(unfold int_min; lia)).
  cbn [List.app] in G. split; intro Hm.
  - destruct ((List.length bad_d <? fuel)%nat && (List.length bad_o <? fuel)%nat); [|reflexivity]. destruct (Nat.ltb (List.length ns) fuel); [|reflexivity]. cbn [bind].
    rewrite H1. destruct (Nat.ltb (List.length ths) fuel); [|reflexivity]. cbn [bind].
    rewrite G by (left; exact Hm). destruct (Z.ltb_spec 0 m); [lia|]. reflexivity.
  - destruct (Nat.ltb_spec (List.length bad_d) fuel) as [_|L]; [|right; split; [reflexivity|]; exists (List.length bad_d); split; [exact L|]; simpl; tauto].
    destruct (Nat.ltb_spec (List.length bad_o) fuel) as [_|L]; [|right; split; [reflexivity|]; exists (List.length bad_o); split; [exact L|]; simpl; tauto].
    destruct (Nat.ltb_spec (List.length ns) fuel) as [_|L]; [|right; split; [reflexivity|]; exists (List.length ns); split; [exact L|]; simpl; tauto].
    cbn [andb bind]. rewrite H1.
    destruct (Nat.ltb_spec (List.length ths) fuel) as [_|L]; [|right; split; [reflexivity|]; exists (List.length ths); split; [exact L|]; simpl; tauto].
    cbn [bind]. rewrite G by (right; exact Hm). destruct (Z.ltb_spec 0 m); [|lia].
    destruct (Nat.ltb_spec (List.length bs) fuel) as [_|L]; [|right; split; [reflexivity|]; exists (List.length bs); split; [exact L|]; simpl; tauto].
    left. reflexivity.
Qed.
End C103.
Print Assumptions C103_sample_size.
Print Assumptions C103_thin.
Print Assumptions C103_exponent.
Print Assumptions C103_burnin.
Print Assumptions C103_range_size.
Print Assumptions C103_range_thin.
Print Assumptions C103_range_burnin.

(** ** C104: the data file *)
(** whenever the same name is given for the data and for the output, the data are gone *)
Theorem C104_data_erased (A : Arith) (R : rng A) (text : Type) (empty : text) (read : text -> Gb R -> Gb R) (may_read may_write : string -> bool)
  fuel dir now fs g s o fs' g' s' :
  mcmc_options_prompt (R := R) empty read may_read may_write fuel dir now fs g s = Ok (o, fs', g', s') ->
  (out_file o = data_file o -> fs' (data_file o) = Some empty) /\ (out_file o <> data_file o -> fs' (data_file o) = fs (data_file o)).
Proof.
  intro H. pose proof (C102_usable A R text empty read may_read may_write fuel dir now fs g s o fs' g' s' H) as (_ & _ & _ & _ & _ & _ & _ & E & U & _).
  split; [intros <-; exact E | intro N; apply U; intro Q; apply N; now symmetry].
Qed.
Print Assumptions C104_data_erased.

(** a dialogue with two mistakes: the wrong data file, and a sample size of zero *)
Definition fs_ex : files (list ascii) := fun n => if String.eqb n "/home/x/lc.dat" then Some (list_ascii_of_string "1 2 3") else None.
Definition all (_ : string) := true.
Definition dialogue : list string := ["lc.txt"; "lc.dat"; "out.txt"; "0"; "1000"; "1"; "500"; "42"]%string.

Example ex_dialogue (A : Arith) (R : rng A) read g :
  exists fs' , mcmc_options_prompt (R := R) [] read all all 5 "/home/x" 7 fs_ex g (mkIn (typed dialogue) false)
  = Ok (mkOptions 1000 1 500 1 "/home/x/lc.dat" "/home/x/out.txt", fs', (b_seed R 42, snd g), mkIn [newline] false)%string.
Proof. eexists. vm_compute. reflexivity. Qed.

(** the hypotheses of C102_answers and C103 are those of this dialogue *)
Example ex_names : names (list ascii) all all "/home/x" fs_ex ["lc.txt"]%string "lc.dat" [] "out.txt" /\ tries 1 [0] 1000 /\
  mistyped "many" /\ no_number "e"%char /\ typed ["lc.txt"; "lc.dat"; "out.txt"; "0"; "1000"]%string = typed (["lc.txt"%string] ++ ["lc.dat"%string] ++ [] ++ ["out.txt"%string] ++ map dec [0] ++ [dec 1000])%list.
Proof.
  assert (W : forall w, w <> ""%string -> forallb (fun c => negb (isspace c)) (list_ascii_of_string w) = true -> word w).
  { intros w Hw H. split; [exact Hw|]. intros c Hc Hb. apply isspace_blank in Hb. rewrite forallb_forall in H. specialize (H c Hc). rewrite Hb in H. discriminate H. }
  split; [|split; [|split; [|split]]].
  - constructor.
    + intros w [<- | []]. split; [apply W; [discriminate|reflexivity]|]. intros [H _]. apply H. reflexivity.
    + split; [apply W; [discriminate|reflexivity]|]. split; [discriminate|reflexivity].
    + intros w [].
    + split; [apply W; [discriminate|reflexivity]|reflexivity].
  - split; [intros z [<- | []]; lia | lia].
  - split; [apply W; [discriminate|reflexivity]|]. intros c Hc. injection Hc as <-.
    repeat split; try discriminate; [vm_compute; lia|]. intro H. apply isspace_blank in H. discriminate H.
  - repeat split; try discriminate; [vm_compute; lia|]. intro H. apply isspace_blank in H. discriminate H.
  - reflexivity.
Qed.

(** C104: the data file is left alone -- false *)
Theorem C104_data_kept_refuted (A : Arith) (R : rng A) read g :
  exists dir now fs s fuel o fs' g' s',
    mcmc_options_prompt (R := R) (@nil ascii) read all all fuel dir now fs g s = Ok (o, fs', g', s') /\
    fs (data_file o) = Some (list_ascii_of_string "1 2 3") /\ fs' (data_file o) = Some [].
Proof.
  exists "/home/x"%string, 7, fs_ex, (mkIn (typed ["lc.dat"; "lc.dat"; "1000"; "1"; "500"; "42"]%string) false), 5%nat.
  eexists. eexists. eexists. eexists. split; [vm_compute; reflexivity|]. split; vm_compute; reflexivity.
Qed.
Print Assumptions C104_data_kept_refuted.

(** C103: an answer that is no number is asked for again -- false, even when every later answer is right *)
Theorem C103_asked_again_refuted (A : Arith) (R : rng A) read g :
  exists dir fs s, (exists o fs' g' s', forall now, mcmc_options_prompt (R := R) (@nil ascii) read all all 5 dir now fs g
                       (mkIn (typed ["lc.dat"; "out.txt"; "1000"; "1"; "500"; "42"]%string) false) = Ok (o, fs', g', s')) /\
    s = mkIn (typed ["lc.dat"; "out.txt"; "many"; "1000"; "1"; "500"; "42"]%string) false /\
    forall fuel now, mcmc_options_prompt (R := R) (@nil ascii) read all all fuel dir now fs g s = Diverge.
Proof.
  exists "/home/x"%string, fs_ex. eexists. split; [|split; [reflexivity|]].
  - eexists. eexists. eexists. eexists. intro now. vm_compute. reflexivity.
  - intros fuel now.
    assert (N : names (list ascii) all all "/home/x" fs_ex [] "lc.dat" [] "out.txt").
    { destruct (proj1 ex_names) as [_ H2 H3 H4]. constructor; [intros w [] | exact H2 | exact H3 | exact H4]. }
    exact (C103_sample_size A R (list ascii) [] read all all "/home/x" now fs_ex g [] "lc.dat" [] "out.txt" N [] "many"
             (newline :: typed ["1000"; "1"; "500"; "42"]%string) fuel ltac:(intros z []) (proj1 (proj2 (proj2 ex_names)))).
Qed.
Print Assumptions C103_asked_again_refuted.
