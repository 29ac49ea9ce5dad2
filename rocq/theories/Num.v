(** * Num: the arithmetic interface the numerical code is written against.

    The Python code computes with numpy float64 arrays.  The model is written
    once, generically over a record of operations, and is instantiated by
    - [NumR.RN]  exact real numbers (for the analysis),
    - [NumX.XN]  extended reals with numpy's inf / NaN / division-by-zero
                 behaviour (exact arithmetic otherwise): the semantics in
                 which "returns a finite number" is stated.
    Theorems that are stated "for every Num" hold verbatim for floats too. *)
From Coq Require Import ZArith List String.
Import ListNotations.

Record Num : Type := mkNum {
  T :> Type;
  nZ : Z -> T;                       (* integer literal                        *)
  nQ : Z -> positive -> T;           (* decimal literal p/q, e.g. 1e-7         *)
  nadd : T -> T -> T;
  nsub : T -> T -> T;
  nmul : T -> T -> T;
  ndiv : T -> T -> T;                (* numpy true division                    *)
  nopp : T -> T;
  nabs : T -> T;                     (* np.abs                                 *)
  nsqrt : T -> T;                    (* np.sqrt                                *)
  npow : T -> T -> T;                (* x**y with a non-integer exponent       *)
  nexp : T -> T;
  nlog : T -> T;
  ncosh : T -> T;
  ncos : T -> T;
  nsin : T -> T;
  ntan : T -> T;
  natan : T -> T;
  nacos : T -> T;
  natan2 : T -> T -> T;              (* np.arctan2(y,x)                        *)
  nsign : T -> T;                    (* np.sign                                *)
  npi : T;                           (* np.pi                                  *)
  ninf : T;                          (* np.inf                                 *)
  nnan : T;                          (* np.nan                                 *)
  nellipk : T -> T;                  (* scipy.special.ellipk                   *)
  nellipe : T -> T;                  (* scipy.special.ellipe                   *)
  nlt : T -> T -> bool;              (* x <  y  (false on NaN)                 *)
  nle : T -> T -> bool;              (* x <= y  (false on NaN)                 *)
  neqb : T -> T -> bool;             (* x == y  (false on NaN)                 *)
  nmax : T -> T -> T;                (* np.maximum, NaN-propagating (np.amax)  *)
}.

Declare Scope num_scope.
Delimit Scope num_scope with num.
Notation "x + y" := (nadd _ x y) : num_scope.
Notation "x - y" := (nsub _ x y) : num_scope.
Notation "x * y" := (nmul _ x y) : num_scope.
Notation "x / y" := (ndiv _ x y) : num_scope.
Notation "- x" := (nopp _ x) : num_scope.
Notation "x <? y" := (nlt _ x y) : num_scope.
Notation "x <=? y" := (nle _ x y) : num_scope.
Notation "x =? y" := (neqb _ x y) : num_scope.
Notation "x >? y" := (nlt _ y x) (only parsing) : num_scope.
Notation "x >=? y" := (nle _ y x) (only parsing) : num_scope.
Notation "'#' z" := (nZ _ z%Z) (at level 1, z at level 0, format "'#' z") : num_scope.
Notation "'#q' ( p , q )" := (nQ _ p%Z q%positive) (at level 1) : num_scope.

(** [x**2], [x**3] ... in the code are integer powers. *)
Section Powers.
  Context {N : Num}.
  Local Open Scope num_scope.
  Definition sq (x : N) : N := x * x.
  Definition cube (x : N) : N := x * x * x.
  Definition pow4 (x : N) : N := (x * x) * (x * x).
  Definition pow5 (x : N) : N := pow4 x * x.
  Definition pow6 (x : N) : N := cube x * cube x.
End Powers.

(** Python exceptions are values. *)
Inductive exn : Type :=
| EException (msg : string)        (* raise Exception('...')                  *)
| ENotImplemented (msg : string)   (* raise NotImplementedError('...')        *)
| ETypeError                       (* e.g. int * None                         *)
| EValueError
| EIndexError
| EKeyError
| EAttributeError
| ENameError (var : string)        (* NameError                               *)
| EUnboundLocal (var : string).    (* UnboundLocalError                       *)

Inductive result (A : Type) : Type :=
| Ok (a : A)
| Err (e : exn).
Arguments Ok {A} _.
Arguments Err {A} _.

Definition bind {A B} (x : result A) (f : A -> result B) : result B :=
  match x with Ok a => f a | Err e => Err e end.
Notation "'let*' x := e 'in' k" := (bind e (fun x => k))
  (at level 200, x pattern, e at level 100, k at level 200, right associativity).

Definition is_ok {A} (x : result A) : Prop := exists a, x = Ok a.

Fixpoint mapM {A B} (f : A -> result B) (l : list A) : result (list B) :=
  match l with
  | [] => Ok []
  | a :: l => let* b := f a in let* bs := mapM f l in Ok (b :: bs)
  end.

(** np.amax over a non-empty 1-d array (numpy raises on an empty one). *)
Definition amax {N : Num} (l : list N) : N :=
  match l with
  | [] => nnan N
  | a :: l => fold_left (nmax N) l a
  end.

(** np.sum over a 1-d array (numpy uses pairwise summation; the grouping is
    irrelevant in exact arithmetic). *)
Definition nsum {N : Num} (l : list N) : N := fold_left (nadd N) l (nZ N 0).

(** [map2 f a b]: elementwise binary operation of two arrays of equal length. *)
Fixpoint map2 {A B C} (f : A -> B -> C) (l : list A) (m : list B) : list C :=
  match l, m with
  | a :: l, b :: m => f a b :: map2 f l m
  | _, _ => []
  end.

(** np.linspace(a,b,n): a + i*(b-a)/(n-1), with n=1 giving [a].
    (numpy then overwrites the last entry by b: same value in exact
    arithmetic.) *)
Definition linspace {N : Num} (a b : N) (n : nat) : list N :=
  (match n with
   | O => []
   | S O => [a]
   | S k => map (fun i => a + nZ N (Z.of_nat i) * ((b - a) / nZ N (Z.of_nat k)))
                (seq 0 n)
   end)%num.

(** np.trapz(y,x) = sum_i (x_{i+1}-x_i)*(y_{i+1}+y_i)/2. *)
Fixpoint trapz {N : Num} (y x : list N) : N :=
  (match y, x with
   | y0 :: ((y1 :: _) as y'), x0 :: ((x1 :: _) as x') =>
       (x1 - x0) * (y1 + y0) / #2 + trapz y' x'
   | _, _ => #0
   end)%num.

(** Boolean-mask assignment  [dflt[mask] = vals]  (vals consumed in order). *)
Fixpoint scatter {A} (mask : list bool) (vals dflt : list A) : list A :=
  match mask, dflt with
  | true :: mask, _ :: dflt =>
      match vals with
      | v :: vals => v :: scatter mask vals dflt
      | [] => []                      (* shape mismatch: does not occur *)
      end
  | false :: mask, d :: dflt => d :: scatter mask vals dflt
  | _, _ => []
  end.
(** Boolean-mask selection  [l[mask]]. *)
Fixpoint gather {A} (mask : list bool) (l : list A) : list A :=
  match mask, l with
  | true :: mask, a :: l => a :: gather mask l
  | false :: mask, _ :: l => gather mask l
  | _, _ => []
  end.
