(** Model of generate_from_file: samplers.py L57-72 (MCMCSample) and carma_pack.py L427-437 (CarmaSample, inherited by Car1Sample), with the
    argument, the files and numpy's reading of them. *)
From Coq Require Import List Arith ZArith Bool String Ascii.
From Verif Require Import Arith Res KFModel PyModel PySampleModel.
Import ListNotations.

Set Implicit Arguments.

Section Files.
Variable A : Arith.
Local Notation F := (F A).
Local Notation vec := (list F).
Local Notation dict := (dict A).
Local Notation arr := (arr A).

(** The files that can be opened: the text of the first line and the numbers of the other lines, line by line, all of the same length and at least
    two on a line.  Lines that genfromtxt cannot parse are not modelled. See samplers.py L57-72, carma_pack.py L427-437. *)
Definition files := string -> option (string * list vec).
(** np.genfromtxt(fname, skip_header=1): a two-dimensional array, but a single line gives a one-dimensional one (numpy removes axes of length one); samplers.py L57-72, carma_pack.py L427-437 *)
Definition genfromtxt (rows : list vec) : arr :=
  match rows with
  | [row] => V1 A row
  | _ => V2 A rows
  end.
(** The argument of generate_from_file: a Python string or a list of strings; samplers.py L57, carma_pack.py L427 *)
Inductive names := NStr (s : string) | NList (l : list string).
(** its elements: the elements of a string are strings of one character; samplers.py L57-72 *)
Definition elements (n : names) : list string :=
  match n with
  | NStr s => map (fun c => String c EmptyString) (list_ascii_of_string s)
  | NList l => l
  end.
(** opening a file that is not there raises an exception; samplers.py L57-72 *)
Definition fopen (fs : files) (name : string) : res (file A) :=
  match fs name with
  | Some (h, rows) => Ok (mkFile h (genfromtxt rows))
  | None => Throw Elogic
  end.

(** MCMCSample.generate_from_file, samplers.py L57-72: for fname in filename *)
Fixpoint base_generate (fs : files) (l : list string) (d : dict) : res dict :=
  match l with
  | [] => Ok d
  | name :: r => f <- fopen fs name ;; d1 <- base_from_file f d ;; base_generate fs r d1
  end.
Definition base_generate_from_file (fs : files) (n : names) (d : dict) : res dict := base_generate fs (elements n) d.
(** filename[0] (L435); IndexError if there is none *)
Definition first_name (n : names) : res string :=
  match elements n with
  | [] => Throw Elogic
  | s :: _ => Ok s
  end.
(** CarmaSample.generate_from_file, carma_pack.py L427-437 *)
Definition carma_generate_from_file (q : nat) (fs : files) (n : names) (d : dict) : res dict :=
  name <- first_name n ;; f <- fopen fs name ;; carma_from_file q f d.
(** the same method of a Car1Sample, with the generate_from_trace of L906-912 *)
Definition car1_generate_from_file (fs : files) (n : names) (d : dict) : res dict :=
  name <- first_name n ;; f <- fopen fs name ;; car1_from_file f d.
End Files.
