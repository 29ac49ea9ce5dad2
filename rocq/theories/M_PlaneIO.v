(** * Model of coupling_examples/helper_functions.py: savePlane / loadPlane

    A file system maps file names to contents (an array, abstract type [A]);
    np.save replaces one file, and is atomic here (a simplification: the real
    one can also leave a truncated file).  os.path.normpath is the parameter
    [norm]: any function on names. *)
From Coq Require Import List Bool String.
Import ListNotations.
Local Open Scope string_scope.

Section IO.
  Variable A : Type.
  Variable norm : string -> string.
  (** the files of coupling_examples/helper_functions.py:43-46,50-54: name to contents *)
  Definition fs := string -> option A.
  (** np.save of one array (helper_functions.py:43-46) *)
  Definition put (f : fs) (n : string) (a : A) : fs :=
    fun m => if String.eqb m n then Some a else f m.

  (** helper_functions.py:30-46: the sequence of writes of savePlane.  [div] is the
      division by U0 (None: no normalisation). *)
  Definition savePlane_writes (div : option (A -> A)) (x y u v : A) (base : string)
    : list (string * A) :=
    let u := match div with Some d => d u | None => u end in
    let v := match div with Some d => d v | None => v end in
    let base := norm base in
    [(base ++ "x.npy", x); (base ++ "y.npy", y); (base ++ "u.npy", u); (base ++ "v.npy", v)].
  (** a sequence of np.save calls (helper_functions.py:43-46) *)
  Definition exec (w : list (string * A)) (f : fs) : fs :=
    fold_left (fun f nw => put f (fst nw) (snd nw)) w f.
  (** helper_functions.py:30-46: the state after a complete call *)
  Definition savePlane div x y u v base (f : fs) : fs := exec (savePlane_writes div x y u v base) f.
  (** helper_functions.py:30-46: the state after a crash before the k-th write *)
  Definition savePlane_crash (k : nat) div x y u v base (f : fs) : fs :=
    exec (firstn k (savePlane_writes div x y u v base)) f.

  (** helper_functions.py:49-55 (None: FileNotFoundError) *)
  Definition loadPlane (base : string) (f : fs) : option (A * A * A * A) :=
    let base := norm base in
    match f (base ++ "x.npy"), f (base ++ "y.npy"), f (base ++ "u.npy"), f (base ++ "v.npy") with
    | Some x, Some y, Some u, Some v => Some (x, y, u, v)
    | _, _, _, _ => None
    end.
End IO.
