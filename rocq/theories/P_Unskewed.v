(** * C83: at zero skew the skewed routines tend to the straight-cylinder closed forms *)
From Coquelicot Require Import Coquelicot.
From Coq Require Import ZArith List Bool Arith Lia String Reals Lra Psatz.
From Verif Require Import Num NumR NumX M_Elliptic M_Line M_Ring M_Cylinder M_Doublet M_Skewed L_List L_X L_Angles L_Built Spec SpecBS L_Calc L_Ell L_Cyl L_Carlson P_Line P_Ring P_Doublet P_Skewed P_Polar P_Cylinder P_Cylinder2 P_Cylinder3 P_Longi P_Converge.
Import ListNotations.
Local Open Scope R_scope.

Theorem C83_tangential : forall PIb, third PIb exact3 -> forall g Rr (pts : list R3) i p r psi z, 0 < Rr ->
  nth_error pts i = Some p -> p = (r * cos psi, r * sin psi, z) ->
  px p = 0 /\ py p = 0 \/ 1 / 10000000 * Rr <= rho p -> off_sheet Rr 0 p -> ~ rim_zone Rr (rho p) (pz p) ->
  exists (u : R3) (V : nat -> R3), nth_error (vc_tang_u_gen (N := XN) PIb (Fin g) (Fin Rr) (Fin 0) (map xv pts)) i = Some (xv u) /\
    (forall n, (2 <= n)%nat -> svc_tang_u_polar (N := XN) (Fin g) (Fin Rr) (Fin 0) n false (Fin r, Fin psi, Fin z) = xv (V n)) /\ tends3 V u.
Proof.
  intros PIb HT g Rr pts i p r psi z hR Hi Ep HA HO NR.
  destruct (C54_is_biot_savart PIb HT g Rr pts i p hR Hi HA HO NR) as (u & E & SV). subst p.
  destruct (C82_tangential_converges g Rr 0 r psi z HO) as (u' & V & _ & SV' & EV & _ & TV & _). cbv zeta in *.
  rewrite (sheet_unique _ _ _ _ _ _ SV' SV) in TV. exists u, V. auto.
Qed.
Lemma off_sheet0 Rr p : sqrt (px p ^ 2 + py p ^ 2) <> Rr -> 0 < Rr -> off_sheet Rr 0 p.
Proof.
  intros H hR th s _ E. apply H. rewrite E. unfold px, py. cbn [fst snd]. rewrite Rmult_0_l, Rplus_0_r.
  replace ((Rr * cos th) ^ 2 + (Rr * sin th) ^ 2) with (Rr * Rr) by (pose proof (sin2_cos2 th) as S; unfold Rsqr in S; transitivity (Rr * Rr * (sin th * sin th + cos th * cos th)); [rewrite S; ring|ring]).
  apply sqrt_square. lra.
Qed.
Theorem C83_longitudinal : forall PIb, third1 PIb exact3 -> forall g Rr (pts : list R3) i p r psi z, 0 < Rr ->
  nth_error pts i = Some p -> p = (r * cos psi, r * sin psi, z) -> px p <> 0 \/ py p <> 0 -> sqrt (px p ^ 2 + py p ^ 2) <> Rr ->
  exists (u : R3) (V : nat -> R3), nth_error (vc_longi_u_gen (N := XN) PIb (Fin g) (Fin Rr) false (map xv pts)) i = Some (xv u) /\
    (forall n, (2 <= n)%nat -> svc_longi_u_polar (N := XN) (Fin g) (Fin Rr) (Fin 0) n false (Fin r, Fin psi, Fin z) = xv (V n)) /\ tends3 V u.
Proof.
  intros PIb HT g Rr pts i p r psi z hR Hi Ep HA HN. pose proof (off_sheet0 Rr p HN hR) as HO.
  destruct (C78_longi_is_biot_savart PIb HT g Rr pts i p hR Hi HA HN) as (u & E & F & HF & IF). subst p.
  destruct (C82_longitudinal_converges g Rr 0 r psi z hR HO) as (u' & G & V & HG & IG & EV & TV). cbv zeta in *.
  rewrite atan_0, sin_0, cos_0 in HG.
  assert (EU : u' = u) by (apply (each3_RInt_unique G F 0 (2 * PI)); auto; intros t; exact (half_line_unique _ _ _ _ _ _ (HG t) (HF t))).
  rewrite EU in TV. exists u, V. auto.
Qed.
(** the hypotheses are met, e.g. on the axis, one radius behind the rotor, and two radii off the axis *)
Example C83_case : third PIexact exact3 /\ off_sheet 1 0 (0 * cos 0, 0 * sin 0, 1) /\ ~ rim_zone 1 (rho (0 * cos 0, 0 * sin 0, 1)) 1 /\
  third1 PIexact exact3 /\ sqrt (px (2 * cos 0, 2 * sin 0, 1) ^ 2 + py (2 * cos 0, 2 * sin 0, 1) ^ 2) <> 1.
Proof.
  split; [apply C54_exact_exists|]. 
  split; [apply off_sheet0; [|lra]|split; [|split; [apply third1_exact|]]].
  - unfold px, py; cbn [fst snd]. rewrite cos_0, sin_0. replace ((0 * 1) ^ 2 + (0 * 0) ^ 2) with 0 by ring. rewrite sqrt_0. lra.
  - unfold rim_zone. intros [_ Z]. rewrite Rabs_right in Z; lra.
  - unfold px, py; cbn [fst snd]. rewrite cos_0, sin_0. replace ((2 * 1) ^ 2 + (2 * 0) ^ 2) with (2 * 2) by ring. rewrite sqrt_square; lra.
Qed.
