(** * Independent specifications: vectors, rotations, wind angles.

    Nothing here refers to the model of the code. *)
From Coq Require Import Reals.
Local Open Scope R_scope.

Definition R3 : Type := (R * R * R)%type.
Definition px (a : R3) : R := fst (fst a).
Definition py (a : R3) : R := snd (fst a).
Definition pz (a : R3) : R := snd a.
Definition add3 (a b : R3) : R3 := (px a + px b, py a + py b, pz a + pz b).
Definition sub3 (a b : R3) : R3 := (px a - px b, py a - py b, pz a - pz b).
Definition scal3 (k : R) (a : R3) : R3 := (k * px a, k * py a, k * pz a).
Definition inner (a b : R3) : R := px a * px b + py a * py b + pz a * pz b.
Definition vprod (a b : R3) : R3 :=
  (py a * pz b - pz a * py b, pz a * px b - px a * pz b, px a * py b - py a * px b).
Definition length3 (a : R3) : R := sqrt (inner a a).
Definition unit3 (a : R3) : Prop := inner a a = 1.
Definition perp (a b : R3) : Prop := inner a b = 0.
Definition triple (a b c : R3) : R := inner (vprod a b) c.
Definition zero : R3 := (0, 0, 0).

(** Rotation of [v] by the angle [th] about the unit axis [u] (Rodrigues). *)
Definition rotate (u : R3) (th : R) (v : R3) : R3 :=
  add3 (add3 (scal3 (cos th) v) (scal3 (sin th) (vprod u v)))
       (scal3 ((1 - cos th) * inner u v) u).

(** A right-handed orthonormal pair (horizontal reference, vertical). *)
Definition frame (h v : R3) : Prop := unit3 h /\ unit3 v /\ perp h v.

(** Horizontal wind of speed [s] blowing at angle [th] from [h] about [v], plus a
    vertical component [w]. *)
Definition wind (h v : R3) (s th w : R) : R3 :=
  add3 (scal3 s (rotate v th h)) (scal3 w v).
