(** * Independent specification: divergence-free and curl-free vector fields.  Nothing here refers to the model of the code. *)
From Coquelicot Require Import Coquelicot.
From Coq Require Import Reals.
From Verif Require Import Spec.
Local Open Scope R_scope.

(** partial derivatives of a scalar field at [p] *)
Definition partial_x (f : R3 -> R) (p : R3) (v : R) : Prop := is_derive (fun x => f (x, py p, pz p)) (px p) v.
Definition partial_y (f : R3 -> R) (p : R3) (v : R) : Prop := is_derive (fun y => f (px p, y, pz p)) (py p) v.
Definition partial_z (f : R3 -> R) (p : R3) (v : R) : Prop := is_derive (fun z => f (px p, py p, z)) (pz p) v.

(** du_x/dx + du_y/dy + du_z/dz = 0: mass is conserved *)
Definition divergence_free (u : R3 -> R3) (p : R3) : Prop := exists a b c,
  partial_x (fun q => px (u q)) p a /\ partial_y (fun q => py (u q)) p b /\ partial_z (fun q => pz (u q)) p c /\ a + b + c = 0.
(** du_z/dy = du_y/dz, du_x/dz = du_z/dx, du_y/dx = du_x/dy: no rotation *)
Definition curl_free (u : R3 -> R3) (p : R3) : Prop := exists a b c,
  partial_y (fun q => pz (u q)) p a /\ partial_z (fun q => py (u q)) p a /\
  partial_z (fun q => px (u q)) p b /\ partial_x (fun q => pz (u q)) p b /\
  partial_x (fun q => py (u q)) p c /\ partial_y (fun q => px (u q)) p c.
Definition potential_flow (u : R3 -> R3) (p : R3) : Prop := divergence_free u p /\ curl_free u p.
