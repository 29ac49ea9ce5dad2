(** * Model of the data look-ups of wiz/article_blockage/helper_functions.py:
      loadPlane (468-552), OutputProj.__init__ (109-166), OutputADLines (202-262) *)
From Coq Require Import ZArith QArith Qround String Ascii List Bool.
From Coq Require Import Floats.SpecFloat DecimalString DecimalN.
From Verif Require Import Num M_Turbine M_Tictoc.
Import ListNotations.
Local Open Scope string_scope.
Local Open Scope Z_scope.
Local Notation len := List.length.

(** Python's '{:d}' of an int (helper_functions.py:476): a sign, then the digits *)
Definition sdec (z : Z) : string := if z <? 0 then "-" ++ dec (- z) else dec z.
(** Python's '{:02d}' of an int (helper_functions.py:110,476): the sign counts in the width of two *)
Definition sd02 (z : Z) : string := if z <? 0 then "-" ++ dec (- z) else d02 z.

(** What the look-ups need of a kind of number (helper_functions.py:110, 471-480, 523):
    products with an integer literal, int(), round(), comparisons with 9 and 2.0, the literal 9.9.
    Two instances below: exact rational numbers and binary64. *)
Record fl := {
  F :> Type;
  f_mul : F -> Z -> F;
  f_int : F -> result Z;
  f_round : F -> result Z;
  f_gt9 : F -> bool;
  f_99 : F;
  f_is2 : F -> bool }.

(** round(): nearest integer, ties to even (helper_functions.py:110) *)
Definition Qround_even (y : Q) : Z :=
  let f := Qfloor y in
  match Qcompare (y - inject_Z f) (Qmake 1 2) with
  | Lt => f
  | Gt => f + 1
  | Eq => if Z.even f then f else f + 1
  end.

(** helper_functions.py:110, 471-480, 523 in exact arithmetic *)
Definition exact : fl := {|
  F := Q;
  f_mul q k := (q * inject_Z k)%Q;
  f_int q := Ok (Z.quot (Qnum q) (Zpos (Qden q)));
  f_round q := Ok (Qround_even q);
  f_gt9 q := Qlt_b 9 q;
  f_99 := Qmake 99 10;
  f_is2 q := Qeq_bool q 2 |}.

(** A binary64 literal integer (helper_functions.py:476: 100, 10, ...), by the standard library's SpecFloat *)
Definition b64_of_Z (z : Z) : spec_float := binary_normalize 53 1024 z 0 false.
(** The binary64 number a decimal literal n/d denotes when n and d are below 2^53: the correctly rounded quotient
    (helper_functions.py:474: 9.9, and the CT, HH literals given by callers) *)
Definition b64_lit (n d : Z) : spec_float := SFdiv 53 1024 (b64_of_Z n) (b64_of_Z d).
(** Exact value of a finite binary64 number (int() and round() work on it: helper_functions.py:110,476) *)
Definition b64_Q (x : spec_float) : result Q :=
  match x with
  | S754_zero _ => Ok 0%Q
  | S754_finite s m e =>
      let z := if s then Zneg m else Zpos m in
      Ok (if 0 <=? e then inject_Z (z * 2 ^ e) else (inject_Z z / inject_Z (2 ^ (- e)))%Q)
  | S754_infinity _ | S754_nan => Err EValueError
  end.
(** helper_functions.py:110, 471-480, 523 in binary64 (int(inf): OverflowError in Python, modelled as ValueError) *)
Definition b64 : fl := {|
  F := spec_float;
  f_mul x k := SFmul 53 1024 x (b64_of_Z k);
  f_int x := let* q := b64_Q x in Ok (Z.quot (Qnum q) (Zpos (Qden q)));
  f_round x := let* q := b64_Q x in Ok (Qround_even q);
  f_gt9 x := SFltb (b64_of_Z 9) x;
  f_99 := b64_lit 99 10;
  f_is2 x := SFeqb x (b64_of_Z 2) |}.

(** The Lambda argument of loadPlane (helper_functions.py:468,471): an int, a finite float or infinity *)
Inductive lam := LInt (z : Z) | LFloat (q : Q) | LInf.
(** The Yaw argument of loadPlane (helper_functions.py:468,476,484): an int or a float, in degrees *)
Inductive yaw := YInt (z : Z) | YFloat (q : Q).

(** helper_functions.py:471-472: Lambda>20 becomes the int 99; '{:02d}' of a float is a ValueError (476) *)
Definition lam_key (l : lam) : result Z :=
  match l with
  | LInt z => Ok (if 20 <? z then 99 else z)
  | LFloat q => if Qlt_b 20 q then Ok 99 else Err EValueError
  | LInf => Ok 99
  end.
(** helper_functions.py:476: -Yaw printed with '{:02d}'; a float is a ValueError *)
Definition yaw_key (y : yaw) : result Z := match y with YInt z => Ok (- z) | YFloat _ => Err EValueError end.

(** helper_functions.py:476 *)
Definition plane_base (ct hh l y : Z) : string :=
  "CT0" ++ sdec ct ++ "_HH" ++ sd02 hh ++ "_Lambda" ++ sd02 l ++ "_Yaw" ++ sd02 y.

(** What loadPlane reads (helper_functions.py:490-541): nothing, one .mat file, or comma-separated files
    (the two grid files, then U, V, W and vorticity) *)
Inductive source := NotExisting | MatFile (path : string) | CsvFiles (grid fields : list string).

(** The object loadPlane returns: where its data comes from and the case it says it is
    (helper_functions.py:543-549; the numerical contents of the files are not modelled) *)
Record plane (A : fl) := { pl_src : source; pl_CT : A; pl_HH : A; pl_Lambda : Z; pl_Horizontal : bool; pl_Yaw : Z }.
Arguments pl_src {A}. Arguments pl_CT {A}. Arguments pl_HH {A}. Arguments pl_Lambda {A}.
Arguments pl_Horizontal {A}. Arguments pl_Yaw {A}.

(** helper_functions.py:536-540: the four data files of the ground cases *)
Definition csv_fields (base2 : string) : list string :=
  map (fun c => "../data/Ground/" ++ base2 ++ c) ["_U.csv"; "_V.csv"; "_W.csv"; "_Om.csv"].
(** helper_functions.py:515-532: the grid files of the ground cases *)
Definition csv_grid (A : fl) (Horizontal : bool) (HH : A) : list string :=
  if Horizontal then ["../data/Ground/Horizontal_X.csv"; "../data/Ground/Horizontal_Z.csv"]
  else ["../data/Ground/Vertical_Z.csv";
        if f_is2 A HH then "../data/Ground/Vertical_Y_HH20.csv" else "../data/Ground/Vertical_Y_HH15.csv"].
(** helper_functions.py:533-535: the orientation in the file names *)
Definition sDir (Horizontal : bool) : string := if Horizontal then "Horizontal" else "Vertical".

(** helper_functions.py:468-552; [None] is Python's None.  A missing file is not modelled. *)
Definition loadPlane (A : fl) (CT HH : A) (Lambda : lam) (Horizontal : bool) (Yaw : yaw) : result (option (plane A)) :=
  let HH := if f_gt9 A HH then f_99 A else HH in
  let* ct := f_int A (f_mul A CT 100) in
  let* hh := f_int A (f_mul A HH 10) in
  let* l := lam_key Lambda in
  let* y := yaw_key Yaw in
  let base := plane_base ct hh l y in
  let mk src := Ok (Some {| pl_src := src; pl_CT := CT; pl_HH := HH; pl_Lambda := l; pl_Horizontal := Horizontal; pl_Yaw := - y |}) in
  if f_gt9 A HH then
    if negb Horizontal then Ok None
    else if (0 <? Z.abs y) && negb (l =? 99) then Ok None
    else mk (MatFile ("../data/AD_" ++ base ++ ".mat"))
  else
    if negb (y =? 0) then Ok None
    else if negb ((l =? 6) || (l =? 99)) then Ok None
    else mk (CsvFiles (csv_grid A Horizontal HH) (csv_fields (base ++ "_" ++ sDir Horizontal))).

(** helper_functions.py:110: the file of OutputProj *)
Definition proj_file (A : fl) (CT : A) (suffix : string) : result string :=
  let* n := f_round A (f_mul A CT 100) in
  Ok ("../data/ProjCorr/Layout1x1_CT0" ++ sd02 n ++ suffix ++ ".npz").

(** ** OutputADLines (helper_functions.py:202-262) *)

(** '{:04.2f}' (helper_functions.py:214,234,252): the exact value rounded to hundredths, ties to even; never shorter
    than the width of four *)
Definition hundredths (q : Q) : Z := Qround_even (q * 100).
(** The digits of '{:04.2f}' (helper_functions.py:214); a negative value that rounds to zero prints "-0.00" *)
Definition f042 (q : Q) : string :=
  let h := Z.abs (hundredths q) in
  (if Qlt_b q 0 then "-" else "") ++ dec (h / 100) ++ "." ++ d02 (h mod 100).

(** Layout.split('x') (helper_functions.py:215) *)
Fixpoint split_x (s : string) : list string :=
  match s with
  | EmptyString => [""]
  | String c r =>
      if Ascii.eqb c "x" then "" :: split_x r
      else match split_x r with [] => [String c ""] | h :: t => String c h :: t end
  end.
(** int() of a piece of the layout (helper_functions.py:215): decimal digits; anything else is a ValueError
    (Python also accepts a sign, blanks around the digits and underscores between them) *)
Definition py_int (s : string) : result Z :=
  match NilZero.uint_of_string s with Some d => Ok (Z.of_N (N.of_uint d)) | None => Err EValueError end.
(** [int(x) for x in ...] (helper_functions.py:215) *)
Fixpoint py_ints (l : list string) : result (list Z) :=
  match l with [] => Ok [] | s :: l => let* z := py_int s in let* r := py_ints l in Ok (z :: r) end.

(** The spacing argument: an int or a float (helper_functions.py:209-213) *)
Inductive spacing := SInt (z : Z) | SFloat (q : Q).
(** helper_functions.py:210-213: a 1x1 layout has spacing 0; int(S)!=S raises; int(S) *)
Definition sim_S (S : spacing) (Layout : string) : result Z :=
  if String.eqb Layout "1x1" then Ok 0
  else match S with
       | SInt z => Ok z
       | SFloat q => let i := Z.quot (Qnum q) (Zpos (Qden q)) in if Qeq_bool (inject_Z i) q then Ok i else Err (EException "")
       end.
(** helper_functions.py:251-252: getSimCTs formats S itself with '{:d}', a ValueError for a float *)
Definition sim_S_CTs (S : spacing) (Layout : string) : result Z :=
  if String.eqb Layout "1x1" then Ok 0
  else match S with SInt z => Ok z | SFloat _ => Err EValueError end.
(** helper_functions.py:214 *)
Definition sim_base (S : Z) (Layout : string) (CT HH : Q) : string :=
  "d" ++ sdec S ++ "_" ++ Layout ++ "_ct" ++ f042 CT ++ "_hh" ++ f042 HH.

(** One entry of the dictionary of simulated farms (helper_functions.py:216-225): turbine positions (first coordinate),
    thrust coefficients, and the sampled lines, each a list of (position, velocity) first components;
    the remaining components are not modelled *)
Record adfarm (T : Type) := { af_x : list T; af_ct : list T; af_lines : list (list (T * T)) }.
Arguments af_x {T}. Arguments af_ct {T}. Arguments af_lines {T}.
(** self[base] (helper_functions.py:216): KeyError when absent *)
Fixpoint lookup {E} (d : list (string * E)) (k : string) : result E :=
  match d with [] => Err EKeyError | (k', v) :: d => if String.eqb k' k then Ok v else lookup d k end.
(** xyz[:,0,i], uvw[:,0,i] (helper_functions.py:220-225): IndexError when there is no line i *)
Definition line {T} (f : adfarm T) (i : nat) : result (list (T * T)) :=
  match nth_error (af_lines f) i with Some l => Ok l | None => Err EIndexError end.
(** product of a shape (helper_functions.py:219) *)
Definition zprod (l : list Z) : Z := fold_right Z.mul 1 l.

(** helper_functions.py:209-227 *)
Definition getSim {T} (d : list (string * adfarm T)) (S : spacing) (Layout : string) (CT HH : Q)
  : result (adfarm T * list (T * T)) :=
  let* s := sim_S S Layout in
  let* shape := py_ints (split_x Layout) in
  let* f := lookup d (sim_base s Layout CT HH) in
  if negb (zprod shape =? Z.of_nat (len (af_ct f))) then Err EValueError
  else
    let* mid := line f 0 in
    if String.eqb Layout "1x1" then Ok (f, mid) else let* top := line f 1 in Ok (f, mid).

(** helper_functions.py:229-243: for a 1x1 layout X_top is never assigned (UnboundLocalError) *)
Definition getSimTop {T} (d : list (string * adfarm T)) (S : spacing) (Layout : string) (CT HH : Q)
  : result (adfarm T * list (T * T)) :=
  let* s := sim_S S Layout in
  let* shape := py_ints (split_x Layout) in
  let* f := lookup d (sim_base s Layout CT HH) in
  if String.eqb Layout "1x1" then Err (EUnboundLocal "X_top") else let* top := line f 1 in Ok (f, top).

(** reshape of a list into n rows of m (helper_functions.py:257) *)
Definition rows {T} (n m : nat) (l : list T) : list (list T) :=
  map (fun i => firstn m (skipn (i * m) l)) (seq 0 n).

(** np.unique of one coordinate (helper_functions.py:261): increasing order without repetition *)
Fixpoint qinsert (x : Q) (l : list Q) : list Q :=
  match l with
  | [] => [x]
  | y :: r => match Qcompare x y with Lt => x :: l | Eq => l | Gt => y :: qinsert x r end
  end.
(** np.unique (helper_functions.py:261) *)
Definition unique (l : list Q) : list Q := fold_right qinsert [] l.

(** helper_functions.py:249-262; the case S=0 of a layout other than 1x1 (division by zero: inf and NaN with a warning)
    is outside the model and gives Err here *)
Definition getSimCTs (d : list (string * adfarm Q)) (S : spacing) (Layout : string) (CT HH : Q)
  : result (list Q * list (list Q)) :=
  let* s := sim_S_CTs S Layout in
  let* shape := py_ints (split_x Layout) in
  let* f := lookup d (sim_base s Layout CT HH) in
  match shape with
  | n0 :: n1 :: _ =>
      if negb (n1 * n0 =? Z.of_nat (len (af_ct f))) then Err EValueError
      else
        let cts := rows (Z.to_nat n1) (Z.to_nat n0) (af_ct f) in
        if String.eqb Layout "1x1" then Ok ([0%Q], cts)
        else if s =? 0 then Err (EException "division by zero")
        else Ok (map (fun x => x / inject_Z s)%Q (unique (af_x f)), cts)
  | _ => Err EIndexError
  end.

(** helper_functions.py:245-247 *)
Definition get25 {N : Num} (d : list (string * adfarm N)) (S : spacing) (Layout : string) (CT HH : Q) : result (list N) :=
  let* r := getSim d S Layout CT HH in
  np_interp [nQ N (-25) 10] (map fst (snd r)) (map snd (snd r)).
