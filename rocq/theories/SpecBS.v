(** * Independent specification: velocity induced by vortex filaments (Biot-Savart),
    point doublets, improper integrals.  Nothing here refers to the model of the code. *)
From Coquelicot Require Import Coquelicot.
From Coq Require Import Reals.
From Coq Require List.
From Verif Require Import Spec.
Local Open Scope R_scope.

(** velocity at [x] of a filament element of direction [e] at [y], unit circulation:
    e x (x-y) / (4 pi |x-y|^3) *)
Definition bs_kernel (x y e : R3) : R3 :=
  scal3 (/ (4 * PI * length3 (sub3 x y) ^ 3)) (vprod e (sub3 x y)).

(** a property of all three components *)
Definition each3 (P : (R3 -> R) -> Prop) : Prop := P px /\ P py /\ P pz.

(** [u] is the velocity at [x] of the half line from [p0] along [e], circulation [G] *)
Definition half_line_velocity (G : R) (p0 e x u : R3) : Prop :=
  each3 (fun c => is_RInt_gen (fun s => G * c (bs_kernel x (add3 p0 (scal3 s e)) e))
                              (at_point 0) (Rbar_locally p_infty) (c u)).

(** [u] is the velocity at [x] of the circle of radius [Rr] about the z axis in the plane z=0 *)
Definition circle_velocity (G Rr : R) (x u : R3) : Prop :=
  each3 (fun c => is_RInt (fun th => G * Rr * c (bs_kernel x (Rr * cos th, Rr * sin th, 0) (- sin th, cos th, 0)))
                          0 (2 * PI) (c u)).

(** velocity at [x] of a point doublet of moment [m] at [y]:
    (3 (m.r) r / |r|^5 - m / |r|^3) / (4 pi) *)
Definition point_doublet (m y x : R3) : R3 :=
  let r := sub3 x y in
  scal3 (/ (4 * PI)) (sub3 (scal3 (3 * inner m r / length3 r ^ 5) r) (scal3 (/ length3 r ^ 3) m)).

(** [u] is the velocity at [x] of point doublets of moment (0,0,D) ds at (m s, 0, s), for all s >= 0 *)
Definition doublet_half_line (D m : R) (x u : R3) : Prop :=
  each3 (fun c => is_RInt_gen (fun s => c (point_doublet (0, 0, D) (m * s, 0, s) x))
                              (at_point 0) (Rbar_locally p_infty) (c u)).
(** ... and for 0 <= s <= L *)
Definition doublet_segment (D m L : R) (x u : R3) : Prop :=
  each3 (fun c => is_RInt (fun s => c (point_doublet (0, 0, D) (m * s, 0, s) x)) 0 L (c u)).

(** the composite trapezoidal rule with [n] equispaced abscissae on [t0, t0+T] *)
Definition trapezoid (f : R -> R) (t0 T : R) (n : nat) : R :=
  let h := T / INR (n - 1) in
  List.fold_right Rplus 0 (List.map (fun i => h * ((f (t0 + INR i * h) + f (t0 + INR (S i) * h)) / 2)) (List.seq 0 (n - 1))).
(** [u] is the velocity at [x] of the straight row of elements at (Rr cos th + m s, Rr sin th, s), s >= 0, of a
    skewed cylinder with tangential vorticity [g] per unit length of its axis (direction (m,0,1)), per unit of th *)
Definition ring_row_velocity (g Rr m th : R) (x u : R3) : Prop :=
  each3 (fun c => is_RInt_gen (fun s => g * sqrt (1 + m ^ 2) * Rr * c (bs_kernel x (Rr * cos th + m * s, Rr * sin th, s) (- sin th, cos th, 0)))
                              (at_point 0) (Rbar_locally p_infty) (c u)).

(** complete elliptic integral of the third kind *)
Definition Piell (n m : R) : R :=
  RInt (fun t => / ((1 - n * (sin t * sin t)) * sqrt (1 - m * (sin t * sin t)))) 0 (PI / 2).

(** [u] is the velocity at [x] of the semi-infinite (skewed) cylinder of tangential vorticity [g]: the Biot-Savart
    integral over the sheet, along each generator and then around the circumference *)
Definition sheet_velocity (g Rr m : R) (x u : R3) : Prop :=
  exists F : R -> R3, (forall th, ring_row_velocity g Rr m th x (F th)) /\
    each3 (fun c => is_RInt (fun th => c (F th)) 0 (2 * PI) (c u)).

(** [u] is the velocity at [x] of the semi-infinite straight cylinder of longitudinal vorticity [g]: half lines along z
    from every point of the circle, of circulation [g * Rr] per unit of angle *)
Definition longi_sheet_velocity (g Rr : R) (x u : R3) : Prop :=
  exists F : R -> R3, (forall th, half_line_velocity (g * Rr) (Rr * cos th, Rr * sin th, 0) (0, 0, 1) x (F th)) /\
    each3 (fun c => is_RInt (fun th => c (F th)) 0 (2 * PI) (c u)).

(** Carlson's symmetric elliptic integrals, as improper integrals over (0, infinity):
    RF(x,y,z) = 1/2 int dt / sqrt((t+x)(t+y)(t+z)), RC(x,y) = 1/2 int dt / (sqrt(t+x) (t+y)),
    RJ(x,y,z,r) = 3/2 int dt / (sqrt((t+x)(t+y)(t+z)) (t+r)) *)
Definition is_RF (x y z l : R) : Prop :=
  is_RInt_gen (fun t => / (2 * (sqrt (t + x) * sqrt (t + y) * sqrt (t + z)))) (at_right 0) (Rbar_locally p_infty) l.
Definition is_RC (x y l : R) : Prop :=
  is_RInt_gen (fun t => / (2 * (sqrt (t + x) * (t + y)))) (at_right 0) (Rbar_locally p_infty) l.
Definition is_RJ (x y z r l : R) : Prop :=
  is_RInt_gen (fun t => 3 / (2 * (sqrt (t + x) * sqrt (t + y) * sqrt (t + z) * (t + r)))) (at_right 0) (Rbar_locally p_infty) l.
