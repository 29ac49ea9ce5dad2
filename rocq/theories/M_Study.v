(** * Model of the numbers plotted by wiz/article_windfarm_plots (Task8 and Task9).
    Only the computations are modelled, for one entry of each loop; the plots are not. *)
From Coq Require Import ZArith List Bool String Arith.
From Verif Require Import Num M_Elliptic M_Cylinder M_Turbine M_Farm.
Import ListNotations.
Local Open Scope num_scope.
Section Study.
  Context {N : Num}.
  Variable PIb : list (N * N) -> list N.
  (** test_Task8_WindFarm_Spacing_NoGround.py:76,141; test_Task9_WindFarm_GroundEffect.py:68,89,149 *)
  Definition u25D_th (CT0 R zT : N) : N :=
    #1 - #q(5,10) * (#1 - nsqrt N (#1 - CT0)) * (#1 + zT / nsqrt N (sq R + sq zT)).
  (** test_Task8_WindFarm_Spacing_NoGround.py:81-83,146-148; test_Task9_WindFarm_GroundEffect.py:74-78,95-99,154-156:
      uz at one point, divided by U0.  (The code passes scalars and takes the single entry of the result.) *)
  Definition vuz_wf (y zT R CT0 U0 : N) (nx : nat) (xS : N) (nz : nat) (zS hub : N) (mirror : bool) : result N :=
    let* us := windfarm_gridlayout_CTconst_gen PIb R CT0 U0 nx xS nz (Some zS) hub mirror [(#0, y, zT)] in
    match us with
    | (ux, uy, uz) :: _ => Ok ((uz + U0) / U0)
    | [] => Err EIndexError
    end.
  (** test_Task8_WindFarm_Spacing_NoGround.py:76-88,141-152: (1-vuz_wf/u25D_th)*100 *)
  Definition spacing_pct (zT R CT0 U0 : N) (nx nz : nat) (Spacing : N) : result N :=
    let* v := vuz_wf (#0) zT R CT0 U0 nx Spacing nz Spacing (#0) false in
    Ok ((#1 - v / u25D_th CT0 R zT) * #100).
  (** test_Task9_WindFarm_GroundEffect.py:66-82,87-103 *)
  Definition ground_pct (zT R CT0 U0 : N) (nx nz : nat) (Spacing HH : N) : result N :=
    let* vg := vuz_wf HH zT R CT0 U0 nx Spacing nz Spacing HH true in
    let* vn := vuz_wf HH zT R CT0 U0 nx Spacing nz Spacing HH false in
    let th := u25D_th CT0 R zT in
    let DeltaUz := vn - vg in
    let UzNewRef := th - DeltaUz in
    Ok ((#1 - UzNewRef / th) * #100).
  (** test_Task9_WindFarm_GroundEffect.py:149-161 *)
  Definition spacing_ground_pct (zT R CT0 U0 : N) (nx nz : nat) (Spacing HH : N) : result N :=
    let* v := vuz_wf HH zT R CT0 U0 nx Spacing nz Spacing HH true in
    Ok ((#1 - v / u25D_th CT0 R zT) * #100).
End Study.
