(** Model of the interactive part of src/samplers.cpp: mcmc_options_prompt, write_to_file, read_from_file.  The text that is
    printed is not modelled. *)
From Coq Require Import List Arith ZArith Bool String Ascii.
From Verif Require Import Arith Res Cx EngineModel RandModel.
Import ListNotations.

Set Implicit Arguments.
Local Open Scope Z_scope.

(** ** std::cin *)
(** The characters still to come (then the end of the input) and whether an extraction has failed.  The flag eofbit is not
    kept: when it is set no character is left, and the next extraction fails either way. See std::cin as used at samplers.cpp L154-208. *)
Record istream := mkIn { inp : list ascii; failed : bool }.
(** isspace in the C locale; for the extractions of samplers.cpp L154-208 *)
Definition isspace (c : ascii) : bool :=
  let n := nat_of_ascii c in (Nat.eqb n 32 || (Nat.leb 9 n && Nat.leb n 13))%bool.
(** a decimal digit, for the extractions of samplers.cpp L181-208 *)
Definition digit (c : ascii) : option Z :=
  let n := nat_of_ascii c in
  if (Nat.leb 48 n && Nat.leb n 57)%bool then Some (Z.of_nat n - 48) else None.
(** the white space an extraction skips, samplers.cpp L154-208 *)
Fixpoint skip_ws (l : list ascii) : list ascii :=
  match l with [] => [] | c :: r => if isspace c then skip_ws r else l end.
(** the characters up to the next white space, and the rest; samplers.cpp L154, L168 *)
Fixpoint word_split (l : list ascii) : list ascii * list ascii :=
  match l with
  | [] => ([], [])
  | c :: r => if isspace c then ([], l) else let (w, r1) := word_split r in (c :: w, r1)
  end.
(** the value of the leading digits ([acc]: the digits before), and the rest; samplers.cpp L181-208 *)
Fixpoint digits (l : list ascii) (acc : Z) : Z * list ascii :=
  match l with
  | [] => (acc, [])
  | c :: r => match digit c with Some d => digits r (10 * acc + d) | None => (acc, l) end
  end.
(** std::cin >> s  for a std::string that holds [old]: when the stream has failed or only white space is left, the string keeps
    its value (samplers.cpp L154, L168) *)
Definition read_str (s : istream) (old : string) : string * istream :=
  if failed s then (old, s) else
  match skip_ws (inp s) with
  | [] => (old, mkIn [] true)
  | l => let (w, r) := word_split l in (string_of_list_ascii w, mkIn r false)
  end.
(** the optional sign and the digits of num_get; None: no digit; samplers.cpp L181-208 *)
Definition number (l : list ascii) : option Z * bool * list ascii :=
  let '(neg, l1) := match l with
                    | [] => (false, [])
                    | c :: r => if Ascii.eqb c "-" then (true, r) else if Ascii.eqb c "+" then (false, r) else (false, l)
                    end in
  match l1 with
  | [] => (None, neg, [])
  | c :: _ => match digit c with
              | None => (None, neg, l1)
              | Some _ => let (v, r) := digits l1 0 in (Some v, neg, r)
              end
  end.
(** the largest int (32 bits), for samplers.cpp L181-199 *)
Definition int_max := 2147483647.
(** the smallest int, for samplers.cpp L181-199 *)
Definition int_min := -2147483648.
(** the largest unsigned long (64 bits), for samplers.cpp L208 *)
Definition ulong_max := 18446744073709551615.
(** std::cin >> n  for an int, base 10 (samplers.cpp L181, L190, L199); None: a variable that was never assigned.  C++11: a failed
    conversion stores 0, one out of range stores the nearest value, and both set failbit; when the stream has failed before,
    or only white space is left, the variable keeps its value *)
Definition read_int (s : istream) (old : option Z) : option Z * istream :=
  if failed s then (old, s) else
  match skip_ws (inp s) with
  | [] => (old, mkIn [] true)
  | l => let '(v, neg, r) := number l in
         match v with
         | None => (Some 0, mkIn r true)
         | Some n => let z := if neg then - n else n in
                     if z <? int_min then (Some int_min, mkIn r true)
                     else if int_max <? z then (Some int_max, mkIn r true)
                     else (Some z, mkIn r false)
         end
  end.
(** std::cin >> n  for an unsigned long of 64 bits (samplers.cpp L208): a minus sign is accepted and the value is taken modulo 2^64 *)
Definition read_ulong (s : istream) (old : option Z) : option Z * istream :=
  if failed s then (old, s) else
  match skip_ws (inp s) with
  | [] => (old, mkIn [] true)
  | l => let '(v, neg, r) := number l in
         match v with
         | None => (Some 0, mkIn r true)
         | Some n => if ulong_max <? n then (Some ulong_max, mkIn r true)
                     else (Some ((if neg then - n else n) mod (ulong_max + 1)), mkIn r false)
         end
  end.

(** struct MCMCOptions, samplers.hpp L40-53 *)
Record options := mkOptions { sample_size : Z; thin : Z; burnin : Z; chains : Z; data_file : string; out_file : string }.

Section Prompt.
Variable A : Arith.
Variable R : rng A.
Local Notation gen := (gen R).
(** Files as in RandModel: a map from names to contents ([empty]: a file without contents, [read]: what  stream >> rng  leaves in
    the generator).  Two names of one file are not modelled.  [may_read], [may_write]: the names that can be opened. *)
Variable text : Type.
Variable empty : text.
Variable read : text -> Gb R -> Gb R.
Variables may_read may_write : string -> bool.
Local Notation files := (files text).

(** read_from_file, samplers.cpp L264-274 *)
Definition read_from_file (name : string) (fs : files) : bool :=
  match fs name with Some _ => may_read name | None => false end.
(** write_to_file, samplers.cpp L252-261: std::ofstream opens with ios::out, which creates the file or removes its contents *)
Definition write_to_file (name : string) (fs : files) : bool * files :=
  if may_write name then (true, fun n => if String.eqb n name then Some empty else fs n) else (false, fs).

(** idirectory + "/" + name *)
Definition in_dir (dir name : string) : string := (dir ++ "/" ++ name)%string.

(** the loop over the name of the data file, samplers.cpp L150-163 *)
Fixpoint ask_data (fuel : nat) (dir : string) (fs : files) (s : istream) : res (string * istream) :=
  match fuel with
  | O => Diverge
  | S f => let (name, s1) := read_str s "" in
           let path := in_dir dir name in
           if read_from_file path fs then Ok (path, s1) else ask_data f dir fs s1
  end.
(** the loop over the name of the output file, samplers.cpp L164-177 *)
Fixpoint ask_out (fuel : nat) (dir : string) (fs : files) (s : istream) : res (string * files * istream) :=
  match fuel with
  | O => Diverge
  | S f => let (name, s1) := read_str s " " in
           let path := in_dir dir name in
           let (open_flag, fs1) := write_to_file path fs in
           if open_flag then Ok (path, fs1, s1) else ask_out f dir fs1 s1
  end.
(** the three loops over a number that must be at least [lo], samplers.cpp L178-186, L187-195, L196-204; [v]: the variable *)
Fixpoint ask_int (fuel : nat) (lo : Z) (v : option Z) (s : istream) : res (Z * istream) :=
  match fuel with
  | O => Diverge
  | S f => let (v1, s1) := read_int s v in
           match v1 with
           | None => UB
           | Some z => if z <? lo then ask_int f lo v1 s1 else Ok (z, s1)
           end
  end.
(** the seed, samplers.cpp L223-246; [now]: time(NULL) *)
Definition set_seed (dir : string) (now : Z) (seed : Z) (fs : files) (g : gen) : gen :=
  if seed =? 0 then SetSeed now g
  else if seed =? 1 then
    let name := in_dir dir "seed.txt" in
    if read_from_file name fs then RecoverSeed read name fs g else SetSeed now g
  else SetSeed seed g.
(** mcmc_options_prompt, samplers.cpp L142-249: the options, the files, the generator RandGen and std::cin afterwards *)
Definition mcmc_options_prompt (fuel : nat) (dir : string) (now : Z) (fs : files) (g : gen) (s : istream)
  : res (options * files * gen * istream) :=
  '(data, s1) <- ask_data fuel dir fs s ;;
  '(out, fs1, s2) <- ask_out fuel dir fs s1 ;;
  '(n, s3) <- ask_int fuel 1 None s2 ;;
  '(th, s4) <- ask_int fuel 1 None s3 ;;
  '(b, s5) <- ask_int fuel 0 None s4 ;;
  let (seed, s6) := read_ulong s5 None in
  match seed with
  | None => UB
  | Some sd => Ok (mkOptions n th b 1 data out, fs1, set_seed dir now sd fs1 g, s6)
  end.
End Prompt.
