(** * C114: the legacy (Matlab-style) interface of the skewed cylinder *)
From Coquelicot Require Import Coquelicot.
From Coq Require Import ZArith List Bool Arith Lia String Reals Lra Psatz.
From Verif Require Import Num NumR NumX M_Elliptic M_Line M_Cylinder M_Skewed L_List L_X L_Angles L_Built Spec SpecBS L_Calc P_Line P_Skewed P_Polar.
Import ListNotations.
Local Open Scope R_scope.
Local Notation len := List.length.

(** ** Specification.  The unit vectors of the three frames, and the seven components of a velocity in the order of the
    documentation: (u_z, u_psi, u_x, u_y, u_zeta, u_xi, u_r) *)
Definition e_r (psi : R) : R3 := (cos psi, sin psi, 0).
Definition e_psi (psi : R) : R3 := (- sin psi, cos psi, 0).
Definition e_zeta (chi : R) : R3 := (sin chi, 0, cos chi).    (* along the wake *)
Definition e_xi (chi : R) : R3 := (cos chi, 0, - sin chi).    (* normal to it, in the plane x,z *)
Definition comb (a : R) (u : R3) (b : R) (v : R3) (c : R) (w : R3) : R3 :=
  (a * px u + b * px v + c * px w, a * py u + b * py v + c * py w, a * pz u + b * pz v + c * pz w).
Definition seven_components (m psi : R) (v : R3) (s : list R) : Prop :=
  exists u_z u_psi u_x u_y u_zeta u_xi u_r, s = [u_z; u_psi; u_x; u_y; u_zeta; u_xi; u_r] /\
    v = comb u_x (1, 0, 0) u_y (0, 1, 0) u_z (0, 0, 1) /\
    v = comb u_r (e_r psi) u_psi (e_psi psi) u_z (0, 0, 1) /\
    v = comb u_zeta (e_zeta (atan m)) u_y (0, 1, 0) u_xi (e_xi (atan m)).
(** the numbers a point gets in a tuple of arrays *)
Definition at_point (out : list (list X)) (i : nat) : list (option X) := map (fun a => nth_error a i) out.

Lemma seven_unique m psi v s s' : seven_components m psi v s -> seven_components m psi v s' -> s = s'.
Proof.
  intros (z & ps & x & y & ze & xi & r & -> & A & B & C) (z' & ps' & x' & y' & ze' & xi' & r' & -> & A' & B' & C').
  unfold comb, e_r, e_psi, e_zeta, e_xi, px, py, pz in *. cbn [fst snd] in *. subst v. injection A'. injection B as B1 B2 _. injection B' as B1' B2' _. injection C as C1 _ C3. injection C' as C1' _ C3'.
  intros. assert (x = x') by lra. assert (y = y') by lra. assert (z = z') by lra. subst x' y' z'.
  pose proof (sin2_cos2 psi) as SC. unfold Rsqr in SC. pose proof (sin2_cos2 (atan m)) as SM. unfold Rsqr in SM.
  set (c := cos psi) in *. set (s := sin psi) in *. set (cm := cos (atan m)) in *. set (sm := sin (atan m)) in *.
  assert (r = r'). { transitivity (r * (s * s + c * c)); [rewrite SC; ring|]. transitivity (r' * (s * s + c * c)); [|rewrite SC; ring].
    transitivity ((r * c + ps * - s + z * 0) * c + (r * s + ps * c + z * 0) * s); [ring|]. rewrite <- B1, <- B2, B1', B2'. ring. }
  assert (ps = ps'). { transitivity (ps * (s * s + c * c)); [rewrite SC; ring|]. transitivity (ps' * (s * s + c * c)); [|rewrite SC; ring].
    transitivity (- (r * c + ps * - s + z * 0) * s + (r * s + ps * c + z * 0) * c); [ring|]. rewrite <- B1, <- B2, B1', B2'. ring. }
  assert (ze = ze'). { transitivity (ze * (sm * sm + cm * cm)); [rewrite SM; ring|]. transitivity (ze' * (sm * sm + cm * cm)); [|rewrite SM; ring].
    transitivity ((ze * sm + y * 0 + xi * cm) * sm + (ze * cm + y * 0 + xi * - sm) * cm); [ring|]. rewrite <- C1, <- C3, C1', C3'. ring. }
  assert (xi = xi'). { transitivity (xi * (sm * sm + cm * cm)); [rewrite SM; ring|]. transitivity (xi' * (sm * sm + cm * cm)); [|rewrite SM; ring].
    transitivity ((ze * sm + y * 0 + xi * cm) * cm - (ze * cm + y * 0 + xi * - sm) * sm); [ring|]. rewrite <- C1, <- C3, C1', C3'. ring. }
  congruence.
Qed.

Lemma arrays_components m (pts us : list (X * X * X)) i r psi z (v : R3) :
  nth_error pts i = Some (Fin r, Fin psi, Fin z) -> nth_error us i = Some (xv v) ->
  exists s, seven_components m psi v s /\ at_point (fV_arrays (N := XN) (Fin m) 7 pts us) i = map (fun x => Some (Fin x)) s.
Proof.
  intros Hp Hu. destruct v as [[vx vy] vz]. unfold xv, px, py, pz in Hu. cbn [fst snd] in Hu.
  destruct (C67_skew_components_rotation vx vz m) as (uze & uxi & ES & E1 & E2 & _).
  destruct (C67_polar_components_rotation vx vy psi) as (ur & up & EP & _ & E3 & E4 & _).
  exists [vz; up; vx; vy; uze; uxi; ur]. split.
  - do 7 eexists. split; [reflexivity|]. unfold comb, e_r, e_psi, e_zeta, e_xi, px, py, pz. cbn [fst snd].
    pose proof (sin2_cos2 (atan m)) as SM. unfold Rsqr in SM.
    split; [apply tri; ring|]. split; [apply tri; [rewrite E3 at 1; ring|rewrite E4 at 1; ring|ring]|].
    apply tri.
    + rewrite E1, E2. transitivity (vx * (sin (atan m) * sin (atan m) + cos (atan m) * cos (atan m))); [rewrite SM; ring|ring].
    + ring.
    + rewrite E1, E2. transitivity (vz * (sin (atan m) * sin (atan m) + cos (atan m) * cos (atan m))); [rewrite SM; ring|ring].
  - unfold at_point, fV_arrays. cbn [firstn map].
    assert (P : nth_error (map2 (fun p u : X * X * X => let '(r, psi, z) := p in let '(ux, uy, uz) := u in polar_components (N := XN) ux uy psi) pts us) i = Some (Fin ur, Fin up)).
    { rewrite <- EP. clear -Hp Hu. revert us i Hp Hu. induction pts as [|p pts IH]; intros [|u us] [|i] Hp Hu; cbn in *; try discriminate; [|eauto].
      injection Hp as ->. injection Hu as ->. reflexivity. }
    nT. rewrite !nth_error_map. nT. rewrite P, Hu. cbn [option_map fst snd]. nT. rewrite ES. reflexivity.
Qed.

(** ** C114 *)
(** Tangential vorticity, off the surface of the wake: the seven numbers are the components, in the three frames, of one velocity,
    the sum over [ntheta] azimuths (trapezoidal rule) of the Biot-Savart velocities of rows of vortex elements *)
Theorem C114_tangential : forall m g n (pts : list R3) i r psi z, (2 <= n)%nat -> nth_error pts i = Some (r, psi, z) ->
  let x := (r * cos psi, r * sin psi, z) in off_sheet 1 m x ->
  exists F v s, (forall th, ring_row_velocity g 1 m th x (F th)) /\
    v = (trapezoid (fun th => px (F th)) (PI/2) (2 * PI) n, trapezoid (fun th => py (F th)) (PI/2) (2 * PI) n, trapezoid (fun th => pz (F th)) (PI/2) (2 * PI) n) /\
    seven_components m psi v s /\ at_point (fV_Tangential (N := XN) (Fin m) (Fin g) n 7 (map xv pts)) i = map (fun x => Some (Fin x)) s.
Proof.
  intros m g n pts i r psi z Hn Hi x OFF. destruct (C76_tangential_is_trapezoid_of_biot_savart_rows g 1 m r psi z n Hn OFF) as (F & HF & E & _).
  assert (HX : nth_error (map xv pts) i = Some (Fin r, Fin psi, Fin z)) by (rewrite nth_error_map, Hi; reflexivity).
  exists F. eexists. edestruct (arrays_components m (map xv pts) (map (svc_tang_u_polar (N := XN) (Fin g) (nZ XN 1) (Fin m) n false) (map xv pts)) i r psi z) as (s & S1 & S2).
  - exact HX.
  - rewrite nth_error_map. nT. rewrite HX. cbn [option_map]. f_equal. exact E.
  - exists s. split; [exact HF|]. split; [reflexivity|]. split; [exact S1|exact S2].
Qed.
(** Trailed vorticity: the same with straight half-lines starting on the rotor circle *)
Theorem C114_trailed : forall m g n (pts : list R3) i r psi z, (2 <= n)%nat -> nth_error pts i = Some (r, psi, z) ->
  let x := (r * cos psi, r * sin psi, z) in off_sheet 1 m x ->
  exists F v s, (forall th, half_line_velocity g (cos th, sin th, 0) (e_zeta (atan m)) x (F th)) /\
    v = (trapezoid (fun th => px (F th)) (PI / INR n) (2 * PI) n, trapezoid (fun th => py (F th)) (PI / INR n) (2 * PI) n, trapezoid (fun th => pz (F th)) (PI / INR n) (2 * PI) n) /\
    seven_components m psi v s /\ at_point (fV_Trailed (N := XN) (Fin m) (Fin g) n 7 (map xv pts)) i = map (fun x => Some (Fin x)) s.
Proof.
  intros m g n pts i r psi z Hn Hi x OFF. destruct (C77_longitudinal_is_trapezoid_of_biot_savart_lines g 1 m r psi z n ltac:(lra) Hn OFF) as (F & HF & E & _).
  assert (HX : nth_error (map xv pts) i = Some (Fin r, Fin psi, Fin z)) by (rewrite nth_error_map, Hi; reflexivity).
  exists F. eexists. edestruct (arrays_components m (map xv pts) (map (svc_longi_u_polar (N := XN) (Fin g) (nZ XN 1) (Fin m) n false) (map xv pts)) i r psi z) as (s & S1 & S2).
  - exact HX.
  - rewrite nth_error_map. nT. rewrite HX. cbn [option_map]. f_equal. exact E.
  - exists s. split; [|split; [reflexivity|split; [exact S1|exact S2]]].
    intros th. specialize (HF th). rewrite !Rmult_1_l, Rmult_1_r in HF. exact HF.
Qed.
(** Root vortex: components of the velocity of svc_root_u_polar, which has the same polar components (C57) *)
Theorem C114_root : forall m G (pts : list R3) i r psi z, nth_error pts i = Some (r, psi, z) -> m <> 0 \/ r <> 0 \/ G = 0 ->
  exists out cs ps v w s, fV_Root (N := XN) (Fin m) (Fin G) 7 (map xv pts) = Ok out /\
    svc_root_u_polar (N := XN) (Fin G) (Fin m) false (map xv pts) = Ok cs /\ nth_error cs i = Some (xv v) /\
    seven_components m psi v s /\ at_point out i = map (fun x => Some (Fin x)) s /\
    (* the polar output of svc_root_u_polar has u_r, u_psi, u_z as last, second and first component *)
    svc_root_u_polar (N := XN) (Fin G) (Fin m) true (map xv pts) = Ok ps /\ nth_error ps i = Some (xv w) /\
    w = (nth 6 s 0, nth 1 s 0, nth 0 s 0).
Proof.
  intros m G pts i r psi z Hi H. destruct (C57_skewed_root G m pts i (r, psi, z) Hi H) as (ps & cs & w & E1 & E2 & N1 & N2). change (py (r, psi, z)) with psi in N2.
  assert (HX : nth_error (map xv pts) i = Some (Fin r, Fin psi, Fin z)) by (rewrite nth_error_map, Hi; reflexivity).
  destruct (arrays_components m (map xv pts) cs i r psi z _ HX N2) as (s & S1 & S2).
  exists (fV_arrays (N := XN) (Fin m) 7 (map xv pts) cs), cs, ps, (cart_of psi w), w, s. unfold fV_Root. 
  split; [|split; [exact E2|split; [exact N2|split; [exact S1|split; [exact S2|split; [exact E1|split; [exact N1|]]]]]]].
  - nT. rewrite E2. reflexivity.
  - destruct w as [[w1 w2] w3]. pose proof S1 as S1'. destruct S1 as (uz & up & ux & uy & uze & uxi & ur & -> & A & B & C).
    assert (Q : seven_components m psi (cart_of psi (w1, w2, w3)) [w3; w2; ux; uy; uze; uxi; w1]).
    { do 7 eexists. split; [reflexivity|]. split; [rewrite A; f_equal|split; [|rewrite C; reflexivity]].
      - unfold cart_of, comb, px, py, pz in A. cbn [fst snd] in A. injection A. intros. lra.
      - unfold cart_of, comb, e_r, e_psi, px, py, pz. cbn [fst snd]. apply tri; ring. }
    pose proof (seven_unique _ _ _ _ _ S1' Q) as E. injection E as -> -> ->. reflexivity.
Qed.
(** Asking for fewer outputs returns the first ones *)
Theorem C114_fewer_outputs : forall (m g : X) n k (pts : list (X * X * X)),
  fV_Tangential (N := XN) m g n k pts = firstn k (fV_Tangential (N := XN) m g n 7 pts) /\
  fV_Trailed (N := XN) m g n k pts = firstn k (fV_Trailed (N := XN) m g n 7 pts) /\
  (forall out, fV_Root (N := XN) m g 7 pts = Ok out -> fV_Root (N := XN) m g k pts = Ok (firstn k out)) /\
  (* and there are never more than seven, whose first is the axial velocity *)
  len (fV_Tangential (N := XN) m g n k pts) = Nat.min k 7 /\
  fV_Tangential (N := XN) m g n 1 pts = [map snd (map (svc_tang_u_polar (N := XN) g (nZ XN 1) m n false) pts)].
Proof.
  assert (K : forall (m : X) k (pts us : list (X * X * X)), fV_arrays (N := XN) m k pts us = firstn k (fV_arrays (N := XN) m 7 pts us)).
  { intros. unfold fV_arrays. do 8 (destruct k as [|k]; [reflexivity|]). reflexivity. }
  intros m g n k pts. split; [apply K|]. split; [apply K|]. split; [|split].
  - unfold fV_Root. destruct (svc_root_u_polar (N := XN) g m false pts) as [us|e]; [|discriminate]. intros out E. injection E as <-. reflexivity.
  - unfold fV_Tangential, fV_arrays. rewrite firstn_length. reflexivity.
  - reflexivity.
Qed.
(** The three parts add up to svc_u_polar of radius 1: axial and Cartesian components (outputs 0, 2, 3) *)
Theorem C114_parts_add_up : forall m gt gl G n (pts : list R3) i r psi z, (2 <= n)%nat -> nth_error pts i = Some (r, psi, z) ->
  off_sheet 1 m (r * cos psi, r * sin psi, z) -> m <> 0 \/ r <> 0 \/ G = 0 ->
  exists rt sl st sr tot, fV_Root (N := XN) (Fin m) (Fin G) 7 (map xv pts) = Ok rt /\
    at_point (fV_Trailed (N := XN) (Fin m) (Fin gl) n 7 (map xv pts)) i = map (fun x => Some (Fin x)) sl /\
    at_point (fV_Tangential (N := XN) (Fin m) (Fin gt) n 7 (map xv pts)) i = map (fun x => Some (Fin x)) st /\
    at_point rt i = map (fun x => Some (Fin x)) sr /\
    svc_u_polar (N := XN) (Fin gt) (Fin gl) (Fin G) (Fin 1) (Fin m) n false (map xv pts) = Ok tot /\
    nth_error tot i = Some (xv (nth 2 sl 0 + nth 2 st 0 + nth 2 sr 0, nth 3 sl 0 + nth 3 st 0 + nth 3 sr 0, nth 0 sl 0 + nth 0 st 0 + nth 0 sr 0)).
Proof.
  intros m gt gl G n pts i r psi z Hn Hi OFF H.
  assert (HX : nth_error (map xv pts) i = Some (Fin r, Fin psi, Fin z)) by (rewrite nth_error_map, Hi; reflexivity).
  destruct (C76_tangential_is_trapezoid_of_biot_savart_rows gt 1 m r psi z n Hn OFF) as (F & _ & ET & _).
  destruct (C77_longitudinal_is_trapezoid_of_biot_savart_lines gl 1 m r psi z n ltac:(lra) Hn OFF) as (F' & _ & EL & _). cbv zeta in EL.
  destruct (C57_skewed_root G m pts i (r, psi, z) Hi H) as (ps & cs & w & _ & E2 & _ & N2). change (py (r, psi, z)) with psi in N2.
  set (vt := (trapezoid (fun th => px (F th)) (PI/2) (2 * PI) n, trapezoid (fun th => py (F th)) (PI/2) (2 * PI) n, trapezoid (fun th => pz (F th)) (PI/2) (2 * PI) n)) in *.
  set (vl := (trapezoid (fun th => px (F' th)) (PI / INR n) (2 * PI) n, trapezoid (fun th => py (F' th)) (PI / INR n) (2 * PI) n, trapezoid (fun th => pz (F' th)) (PI / INR n) (2 * PI) n)) in *.
  set (vr := cart_of psi w) in *.
  set (ul := map (svc_longi_u_polar (N := XN) (Fin gl) (nZ XN 1) (Fin m) n false) (map xv pts)).
  set (ut := map (svc_tang_u_polar (N := XN) (Fin gt) (nZ XN 1) (Fin m) n false) (map xv pts)).
  assert (NL : nth_error ul i = Some (xv vl)) by (unfold ul; rewrite nth_error_map; nT; rewrite HX; cbn [option_map]; f_equal; exact EL).
  assert (NT : nth_error ut i = Some (xv vt)) by (unfold ut; rewrite nth_error_map; nT; rewrite HX; cbn [option_map]; f_equal; exact ET).
  destruct (arrays_components m (map xv pts) ul i r psi z _ HX NL) as (sl & L1 & L2).
  destruct (arrays_components m (map xv pts) ut i r psi z _ HX NT) as (st & T1 & T2).
  destruct (arrays_components m (map xv pts) cs i r psi z _ HX N2) as (sr & R1 & R2).
  exists (fV_arrays (N := XN) (Fin m) 7 (map xv pts) cs), sl, st, sr, (fadd (N := XN) (fadd (N := XN) ul ut) cs).
  split; [unfold fV_Root; nT; rewrite E2; reflexivity|]. split; [exact L2|]. split; [exact T2|]. split; [exact R2|].
  split; [unfold svc_u_polar; nT; rewrite E2; reflexivity|].
  assert (FA : forall (a b : list (X * X * X)) (u v : R3), nth_error a i = Some (xv u) -> nth_error b i = Some (xv v) -> nth_error (fadd (N := XN) a b) i = Some (xv (px u + px v, py u + py v, pz u + pz v))).
  { intros a b u v Ha Hb. unfold fadd. clear -Ha Hb. revert b i Ha Hb. induction a as [|p a IH]; intros [|q b] [|i] Ha Hb; cbn in *; try discriminate; [|eauto].
    injection Ha as ->. injection Hb as ->. reflexivity. }
  rewrite (FA _ _ _ _ (FA _ _ _ _ NL NT) N2). f_equal. f_equal.
  destruct L1 as (? & ? & ? & ? & ? & ? & ? & -> & VL & _). destruct T1 as (? & ? & ? & ? & ? & ? & ? & -> & VT & _). destruct R1 as (? & ? & ? & ? & ? & ? & ? & -> & VR & _).
  rewrite VL, VT, VR. unfold comb, px, py, pz. cbn [fst snd nth]. apply tri; ring.
Qed.
Example C114_case : nth_error [(1/2, 0, 0); (2, 1, 3)] 0 = Some (1/2, 0, 0) /\ off_sheet 1 1 (1 / 2 * cos 0, 1 / 2 * sin 0, 0) /\ (2 <= 180)%nat.
Proof. split; [reflexivity|]. split; [apply C76_case|lia]. Qed.
