(** * Several processes using savePlane / loadPlane at the same time (coupling_examples/helper_functions.py)

    np.save opens the file for writing (which empties it) and then writes the array: two steps of a process, between which others run.
    Simplifications: the write itself is one step (a reader sees the empty file or the whole array); when two processes write the same
    file, the later one replaces it; np.load is one step.  A process may stop for ever after any of its steps (crash).
    os.path.normpath is the parameter [norm]. *)
From Coq Require Import List Bool String Arith.
Import ListNotations.
Local Open Scope string_scope.

Section Conc.
  Variable A : Type.
  Variable norm : string -> string.
  (** a file: none, emptied by a writer (helper_functions.py:43-46, np.save has opened it), or holding an array *)
  Inductive content := Absent | Emptied | Full (a : A).
  (** the directory *)
  Definition disk := string -> content.
  (** one step on a file: open for writing, write, read *)
  Inductive op := Open (n : string) | Write (n : string) (a : A) | Read (n : string).
  (** helper_functions.py:30 and :49: the calls *)
  Inductive call :=
    | Save (div : option (A -> A)) (x y u v : A) (base : string)
    | Load (base : string).
  (** the four files of a base name, in the order of helper_functions.py:43-46 and 51-54 *)
  Definition file (k : nat) (base : string) : string :=
    norm base ++ match k with 0 => "x.npy" | 1 => "y.npy" | 2 => "u.npy" | _ => "v.npy" end.
  (** helper_functions.py:38-40: the arrays that are saved ([div]: division by U0) *)
  Definition arrays (div : option (A -> A)) (x y u v : A) : A * A * A * A :=
    match div with None => (x, y, u, v) | Some d => (x, y, d u, d v) end.
  (** helper_functions.py:38-46 and 49-55: the steps of a call *)
  Definition steps (c : call) : list op :=
    match c with
    | Save div x y u v base =>
        let '(x, y, u, v) := arrays div x y u v in
        [Open (file 0 base); Write (file 0 base) x; Open (file 1 base); Write (file 1 base) y;
         Open (file 2 base); Write (file 2 base) u; Open (file 3 base); Write (file 3 base) v]
    | Load base => [Read (file 0 base); Read (file 1 base); Read (file 2 base); Read (file 3 base)]
    end.

  (** a step together with the call it belongs to: (process, number of the call in the process) *)
  Definition tag := (nat * nat)%type.
  Definition event := (tag * op)%type.
  (** the steps of a process that makes the calls [cs], numbered from [k] (helper_functions.py:30-55) *)
  Fixpoint program (p k : nat) (cs : list call) : list event :=
    match cs with
    | [] => []
    | c :: cs => map (fun o => ((p, k), o)) (steps c) ++ program p (S k) cs
    end.
  (** replace the entry [i] of a list *)
  Fixpoint put {B} (l : list B) (i : nat) (b : B) : list B :=
    match l, i with
    | [], _ => []
    | _ :: l, O => b :: l
    | x :: l, S i => x :: put l i b
    end.
  (** any schedule: at each moment one process performs its next step, or everything stops *)
  Inductive schedule : list (list event) -> list event -> Prop :=
    | s_stop ps : schedule ps []
    | s_step ps i e rest tr : nth_error ps i = Some (e :: rest) -> schedule (put ps i rest) tr -> schedule ps (e :: tr).
  (** the steps of all processes: process [i] makes the calls [nth i calls] *)
  Fixpoint programs (p : nat) (calls : list (list call)) : list (list event) :=
    match calls with
    | [] => []
    | cs :: calls => program p 0 cs :: programs (S p) calls
    end.

  (** effect of a step on the disk (np.save, np.load of helper_functions.py:43-46,51-54) *)
  Definition after (f : disk) (o : op) : disk :=
    match o with
    | Open n => fun m => if String.eqb m n then Emptied else f m
    | Write n a => fun m => if String.eqb m n then Full a else f m
    | Read _ => f
    end.
  (** the disk after a list of steps *)
  Definition state (f : disk) (tr : list event) : disk := fold_left (fun f e => after f (snd e)) tr f.
  (** equality of tags *)
  Definition same (t t' : tag) : bool := Nat.eqb (fst t) (fst t') && Nat.eqb (snd t) (snd t').
  (** what the reads of call [c] find, in order (helper_functions.py:51-54; the reads that follow a failing one are not made by the code,
      but change nothing) *)
  Fixpoint reads (f : disk) (tr : list event) (c : tag) : list content :=
    match tr with
    | [] => []
    | (t, o) :: tr =>
        match o with Read n => if same t c then [f n] else [] | _ => [] end ++ reads (after f o) tr c
    end.
  (** result of a loadPlane call that has made its four reads: [None] if one of them raises *)
  Definition loaded (f : disk) (tr : list event) (c : tag) : option (A * A * A * A) :=
    match reads f tr c with
    | [Full x; Full y; Full u; Full v] => Some (x, y, u, v)
    | _ => None
    end.
End Conc.
Arguments Absent {A}. Arguments Emptied {A}. Arguments Full {A} a.
Arguments Open {A} n. Arguments Write {A} n a. Arguments Read {A} n.
Arguments Save {A} div x y u v base. Arguments Load {A} base.
