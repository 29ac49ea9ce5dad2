(** * C58, C79: the far-field switch of the vortex cylinder (vc_tang_u_doublet) *)
From Coquelicot Require Import Coquelicot.
From Coq Require Import ZArith List Bool Arith Lia String Reals Lra Psatz.
From Verif Require Import Num NumR NumX M_Elliptic M_Line M_Cylinder M_Ring M_Doublet M_Skewed L_List L_X L_Angles L_Built Spec SpecBS L_Calc L_Ell L_Cyl L_Carlson P_Line P_Ring P_Doublet P_Skewed P_Cylinder P_Cylinder2 P_Cylinder3.
Import ListNotations.
Local Open Scope R_scope.

(** specification: the points farther than [cut * Rr] from the rotor centre *)
Definition far (cut Rr : R) (p : R3) : bool := if Rlt_dec (cut * Rr) (length3 p) then true else false.
(** the answers at the points selected by [s], in order *)
Definition at_points {B} (s : R3 -> bool) (pts : list R3) (us : list B) : list B := map snd (filter (fun q => s (fst q)) (combine pts us)).

Lemma two_scatter {B} (t : R3 -> bool) (f g : R3 -> B) (vals : list B) l : List.length vals = List.length (filter (fun a => negb (t a)) l) ->
  let us := scatter (map t l) (map f (filter t l)) (scatter (map negb (map t l)) vals (map g l)) in
  List.length us = List.length l /\ (forall i a, nth_error l i = Some a -> t a = true -> nth_error us i = Some (f a)) /\ at_points (fun a => negb (t a)) l us = vals.
Proof.
  revert vals. induction l as [|a l IH]; intros vals HL; cbn [map filter scatter] in *.
  - destruct vals; [|discriminate]. repeat split; auto. intros [|i] ? H; discriminate.
  - destruct (t a) eqn:T; cbn [negb map scatter] in *.
    + destruct (IH vals HL) as (A & B1 & C). cbv zeta in *. split; [cbn; f_equal; auto|]. split.
      * intros [|i] b Hb Ht; cbn in *; [injection Hb as <-; auto|eauto].
      * unfold at_points. cbn [combine filter fst]. rewrite T. cbn [negb]. exact C.
    + destruct vals as [|v vals]; [discriminate|]. cbn [List.length] in HL. injection HL as HL. destruct (IH vals HL) as (A & B1 & C). cbv zeta in *.
      cbn [scatter]. split; [cbn; f_equal; auto|]. split.
      * intros [|i] b Hb Ht; cbn in *; [injection Hb as <-; congruence|eauto].
      * unfold at_points. cbn [combine filter fst]. rewrite T. cbn [negb map snd]. f_equal. exact C.
Qed.
Lemma Rsph_len p : sqrt (rho p * rho p + pz p * pz p) = length3 p.
Proof.
  unfold length3. f_equal. unfold rho, inner. rewrite sqrt_sqrt; [reflexivity|]. pose proof (Rsq_pos (px p)). pose proof (Rsq_pos (py p)). lra.
Qed.
Lemma ff_cut_X cut Rr p : vc_ff_cut (N := XN) (Fin cut) (Fin Rr) (xv p) = far cut Rr p.
Proof.
  pose proof (vc_r_X p) as H. destruct p as [[x y] z]. unfold vc_ff_cut, xv, px, py, pz. cbn [fst snd]. unfold vc_r, F3 in H. cbn [fst snd] in H. rewrite H.
  pose proof (Rsq_pos (rho (x, y, z))). pose proof (Rsq_pos z). xn. rewrite xsqrt_fin by lra. pose proof (Rsph_len (x, y, z)) as L. change (pz (x, y, z)) with z in L. rewrite L. unfold far. cbn. unfold Rltb. reflexivity.
Qed.
Lemma vc_len PIb P g Rr (pts : list R3) : third PIb P -> 0 < Rr -> List.length (vc_tang_polar_gen (N := XN) PIb (Fin g) (Fin Rr) (Fin 0) (map xv pts)) = List.length pts.
Proof. intros HT hR. symmetry. eapply F2_len. apply (vc_polar_spec PIb P g Rr pts HT hR). Qed.
Definition dline (g Rr : R) (p : R3) : X * X := doublet_line_polar_pt (N := XN) (Fin (g * (Rr * Rr) * PI)) (Fin (rho p), Fin (pz p)).
Lemma filter_ext' {A} (f g : A -> bool) l : (forall a, f a = g a) -> filter f l = filter g l.
Proof. intros H. induction l as [|a l IH]; cbn; auto. rewrite H, IH. reflexivity. Qed.
Lemma ff_val PIb P g Rr cut (pts : list R3) : third PIb P -> 0 < Rr ->
  exists us, vc_tang_doublet_polar_gen (N := XN) PIb (Fin g) (Fin Rr) (Fin cut) (map xv pts) = Ok us /\ List.length us = List.length pts /\
    (forall i p, nth_error pts i = Some p -> far cut Rr p = true -> nth_error us i = Some (dline g Rr p)) /\
    at_points (fun p => negb (far cut Rr p)) pts us = vc_tang_polar_gen (N := XN) PIb (Fin g) (Fin Rr) (Fin 0) (map xv (filter (fun p => negb (far cut Rr p)) pts)).
Proof.
  intros HT hR. unfold vc_tang_doublet_polar_gen.
  assert (EM : map (vc_ff_cut (N := XN) (Fin cut) (Fin Rr)) (map xv pts) = map (far cut Rr) pts) by (rewrite map_map; apply map_ext; intros; apply ff_cut_X).
  rewrite EM.
  assert (ERZ : map (fun p : X * X * X => (vc_r (N := XN) p, snd p)) (map xv pts) = map (fun p => F2 (rzp p)) pts) by (rewrite map_map; apply map_ext; intros p; unfold F2, rzp; cbn [fst snd]; rewrite <- vc_r_X; reflexivity).
  nT. rewrite ERZ. rewrite gather_map_ext. rewrite (map_map (far cut Rr) negb). rewrite gather_map_ext.
  unfold doublet_line_polar_u.
  assert (AN : any_neg (N := XN) (map (fun p => F2 (rzp p)) (filter (far cut Rr) pts)) = false).
  { unfold any_neg. apply not_true_iff_false. intros Z. apply existsb_exists in Z. destruct Z as (q & Hq & Hn). apply in_map_iff in Hq. destruct Hq as (p & <- & _).
    unfold F2, rzp in Hn. cbn [fst snd] in Hn. apply (proj1 (Rltb_true _ _)) in Hn. pose proof (rho_ge p). lra. }
  nT. rewrite AN. cbn [bind]. set (near := vc_tang_polar_gen (N := XN) PIb (Fin g) (Fin Rr) (Fin 0) (map xv (filter (fun p => negb (far cut Rr p)) pts))).
  assert (LN : List.length near = List.length (filter (fun p => negb (far cut Rr p)) pts)) by (eapply vc_len; eauto).
  destruct (two_scatter (far cut Rr) (dline g Rr) (fun _ => (NaN : X, NaN : X)) near pts LN) as (A & B & C). cbv zeta in *.
  eexists. split; [|split; [exact A|split; [exact B|exact C]]]. f_equal. rewrite !map_map. reflexivity.
Qed.
(** C58: by distance only, point by point: far points get the answer of the doublet line for that point alone, the others
    the answers vc_tang_u gives for exactly the near points (in the same order) *)
Theorem C58_switch_by_distance : forall g Rr cut (pts : list R3), 0 < Rr ->
  exists us, vc_tang_doublet_polar (N := XN) (Fin g) (Fin Rr) (Fin cut) (map xv pts) = Ok us /\ List.length us = List.length pts /\
    (forall i p, nth_error pts i = Some p -> cut * Rr < length3 p -> exists v, nth_error us i = Some v /\
        doublet_line_polar_u (N := XN) [(Fin (sqrt (px p ^ 2 + py p ^ 2)), Fin (pz p))] (Fin (g * Rr ^ 2 * PI)) false = Ok [v]) /\
    at_points (fun p => negb (far cut Rr p)) pts us = vc_tang_polar (N := XN) (Fin g) (Fin Rr) (Fin 0) (map xv (filter (fun p => negb (far cut Rr p)) pts)).
Proof.
  intros g Rr cut pts hR. destruct (ff_val _ any3 g Rr cut pts third_code hR) as (us & E & L & FF & NN). exists us. split; [exact E|]. split; [exact L|]. split; [|exact NN].
  intros i p Hi Hf. exists (dline g Rr p). split; [apply FF; auto; unfold far; destruct (Rlt_dec (cut * Rr) (length3 p)); auto; contradiction|].
  unfold doublet_line_polar_u, any_neg. cbn [existsb fst]. replace (sqrt (px p ^ 2 + py p ^ 2)) with (rho p) by (unfold rho; f_equal; ring). 
  change (nlt XN (Fin (rho p)) (nZ XN 0)) with (Rltb (rho p) 0). rewrite (proj2 (Rltb_false (rho p) 0)) by (pose proof (rho_ge p); lra). cbn [orb map]. unfold dline. repeat f_equal. ring.
Qed.
Lemma combine_nth_error {A B} (l : list A) (m : list B) i : nth_error (combine l m) i = match nth_error l i, nth_error m i with Some a, Some b => Some (a, b) | _, _ => None end.
Proof. revert m i. induction l as [|a l IH]; intros [|b m] [|i]; cbn; auto. - destruct (nth_error l i); auto. Qed.
Lemma pick_nth {B} (s : R3 -> bool) (pts : list R3) (us vs : list B) (Q : R3 -> B -> Prop) : List.length us = List.length pts -> at_points s pts us = vs -> Forall2 Q (filter s pts) vs ->
  forall i p, nth_error pts i = Some p -> s p = true -> exists v, nth_error us i = Some v /\ Q p v.
Proof.
  intros HL <-. revert us HL. induction pts as [|a pts IH]; intros [|u us] HL HF i p Hi Hs; try discriminate; [destruct i; discriminate|].
  unfold at_points in HF. cbn [combine filter fst] in HF. cbn [List.length] in HL. injection HL as HL. destruct (s a) eqn:Sa.
  - cbn [map snd] in HF. inversion HF as [|x y l1 l2 Q1 Q2]; subst. destruct i as [|i]; cbn in *; [injection Hi as <-; eauto|]. eapply IH; eauto.
  - destruct i as [|i]; cbn in *; [injection Hi as <-; congruence|]. eapply IH; eauto.
Qed.
(** with an exact third-kind integral: near points get exactly what vc_tang_u answers for the whole array *)
Theorem C58_near_is_vc_tang : forall PIb, third PIb exact3 -> forall g Rr cut (pts : list R3) us i p, 0 < Rr -> 
  vc_tang_doublet_polar_gen (N := XN) PIb (Fin g) (Fin Rr) (Fin cut) (map xv pts) = Ok us -> nth_error pts i = Some p -> length3 p <= cut * Rr ->
  nth_error us i = nth_error (vc_tang_polar_gen (N := XN) PIb (Fin g) (Fin Rr) (Fin 0) (map xv pts)) i.
Proof.
  intros PIb HT g Rr cut pts us i p hR E Hi Hn. destruct (ff_val _ exact3 g Rr cut pts HT hR) as (us' & E' & L & _ & NN).
  assert (us' = us) by congruence. subst us'. clear E'.
  pose proof (vc_polar_spec PIb exact3 g Rr (filter (fun p => negb (far cut Rr p)) pts) HT hR) as S1. change (map F3 ?l) with (map xv l) in S1. rewrite <- NN in S1.
  destruct (pick_nth _ _ _ _ _ L eq_refl S1 i p Hi) as (v & Hv & V). { unfold far. destruct (Rlt_dec (cut * Rr) (length3 p)); [lra|reflexivity]. }
  rewrite Hv. pose proof (vc_polar_spec PIb exact3 g Rr pts HT hR) as S2. change (map F3 ?l) with (map xv l) in S2.
  destruct (nth_error (vc_tang_polar_gen (N := XN) PIb (Fin g) (Fin Rr) (Fin 0) (map xv pts)) i) as [w|] eqn:Ew.
  2: { exfalso. apply nth_error_None in Ew. rewrite (vc_len PIb exact3) in Ew by auto. apply nth_error_None in Ew. congruence. }
  assert (W : vc_val exact3 g Rr (rho p) (pz p) w) by (exact (Forall2_nth _ _ _ i _ _ S2 Hi Ew)).
  f_equal. destruct V as (V1 & V2 & V3), W as (W1 & W2 & W3).
  destruct (rimb_spec Rr (rho p) (pz p)) as [Z|Z]; [rewrite (V1 Z), (W1 Z); reflexivity|].
  destruct (axisb_spec Rr (rho p)) as [Z'|Z']; [rewrite (V2 Z Z'), (W2 Z Z'); reflexivity|].
  destruct (V3 Z Z') as (q & -> & Q1), (W3 Z Z') as (q' & -> & Q2). f_equal. f_equal. unfold CzP. destruct (Req_EM_T (rho p) Rr); [reflexivity|].
  rewrite (Q1 n), (Q2 n). reflexivity.
Qed.

(** ** C79: accuracy of the far field on the axis *)
Lemma axis_rho z : rho (0, 0, z) = 0 /\ length3 (0, 0, z) = Rabs z.
Proof.
  split; [unfold rho, px, py; cbn [fst snd]; rewrite Rmult_0_l, Rplus_0_l; apply sqrt_0|].
  unfold length3, inner, px, py, pz. cbn [fst snd]. rewrite !Rmult_0_l, !Rplus_0_l. apply sqrt_Rsqr_abs.
Qed.
(** upstream of the rotor the far field is the cylinder's axial velocity up to 3 gamma R^4/(16 z^4) *)
Theorem C79_upstream_axis_accurate : forall g Rr cut (pts : list R3) i z, 0 < Rr -> nth_error pts i = Some (0, 0, z) -> z < - (1/100000000) -> cut * Rr < - z ->
  exists us uff uvc, vc_tang_doublet_polar (N := XN) (Fin g) (Fin Rr) (Fin cut) (map xv pts) = Ok us /\ nth_error us i = Some (Fin 0, Fin uff) /\
    nth_error (vc_tang_polar (N := XN) (Fin g) (Fin Rr) (Fin 0) (map xv pts)) i = Some (Fin 0, Fin uvc) /\ Rabs (uff - uvc) <= 3 * Rabs g * Rr ^ 4 / (16 * z ^ 4).
Proof.
  intros g Rr cut pts i z hR Hi Hz Hc. pose proof PI_RGT_0 as HP. destruct (axis_rho z) as [ER EL].
  destruct (ff_val _ any3 g Rr cut pts third_code hR) as (us & E & L & FF & _). specialize (FF i _ Hi).
  assert (FR : far cut Rr (0, 0, z) = true) by (unfold far; rewrite EL, Rabs_left by lra; destruct (Rlt_dec (cut * Rr) (- z)); auto; contradiction).
  specialize (FF FR). unfold dline in FF. rewrite ER in FF. change (pz (0, 0, z)) with z in FF. rewrite polar_line_val in FF by lra.
  destruct (C51_axis g Rr pts i z hR Hi) as [V _]. cbv zeta in V.
  set (d := - z) in *. assert (Hd : 0 < d) by (unfold d; lra). set (s := sqrt (Rr ^ 2 + z ^ 2)) in *.
  assert (S2 : s * s = Rr * Rr + d * d) by (unfold s; rewrite sqrt_sqrt; [unfold d; ring|pose proof (pow2_ge_0 Rr); pose proof (pow2_ge_0 z); lra]).
  assert (P2 : 0 < Rr * Rr) by (apply Rmult_lt_0_compat; auto).
  assert (SD : d <= s). { unfold s. rewrite <- (sqrt_square d) by lra. apply sqrt_le_1_alt. unfold d. replace (- z * - z) with (z ^ 2) by ring. pose proof (pow2_ge_0 Rr). lra. }
  assert (EZ : sqrt (0 * 0 + z * z) = d) by (rewrite Rmult_0_l, Rplus_0_l; unfold d; rewrite <- Rabs_left by lra; apply sqrt_Rsqr_abs).
  rewrite EZ in FF. exists us. eexists. eexists. split; [exact E|]. split; [etransitivity; [exact FF|]|split; [exact V|]].
  { f_equal. f_equal. f_equal. unfold Rdiv. ring. }
  assert (EQ : - (g * (Rr * Rr) * PI) / (4 * PI) * z / d ^ 3 - g / 2 * (1 + z / s) = g * (Rr * Rr / 2 * (Rr * Rr + d * (Rr * Rr / (s + d))) / (2 * (d * d) * (s * (s + d))))).
  { assert (R2 : Rr * Rr = (s - d) * (s + d)) by (replace ((s - d) * (s + d)) with (s * s - d * d) by ring; rewrite S2; ring). rewrite R2. replace z with (- d) by (unfold d; ring). field. repeat split; lra. }
  rewrite EQ, Rabs_mult. 
  assert (B0 : 0 < s * (s + d)) by (apply Rmult_lt_0_compat; lra). assert (DD : 0 < d * d) by (apply Rmult_lt_0_compat; auto).
  assert (B1 : 0 <= Rr * Rr / (s + d)) by (apply Rlt_le, Rdiv_lt_0_compat; lra).
  assert (B2 : d * (Rr * Rr / (s + d)) <= Rr * Rr / 2).
  { apply Rmult_le_reg_r with (2 * (s + d)); [lra|]. replace (d * (Rr * Rr / (s + d)) * (2 * (s + d))) with (Rr * Rr * (2 * d)) by (field; lra).
    replace (Rr * Rr / 2 * (2 * (s + d))) with (Rr * Rr * (s + d)) by field. apply Rmult_le_compat_l; lra. }
  assert (B3 : 0 <= d * (Rr * Rr / (s + d))) by (apply Rmult_le_pos; lra).
  assert (B4 : 2 * (d * d) <= s * (s + d)) by nra.
  rewrite (Rabs_right (_ / _)).
  2: { apply Rle_ge. apply Rmult_le_pos; [nra|apply Rlt_le, Rinv_0_lt_compat; nra]. }
  replace (3 * Rabs g * Rr ^ 4 / (16 * z ^ 4)) with (Rabs g * (Rr * Rr / 2 * (3 / 2 * (Rr * Rr)) / (2 * (d * d) * (2 * (d * d))))) by (unfold d; field; lra).
  apply Rmult_le_compat_l; [apply Rabs_pos|]. unfold Rdiv. apply Rmult_le_compat.
  - apply Rmult_le_pos; lra.
  - apply Rlt_le, Rinv_0_lt_compat. apply Rmult_lt_0_compat; lra.
  - apply Rmult_le_compat_l; [lra|]. unfold Rdiv in B2. lra.
  - apply Rinv_le_contravar; [apply Rmult_lt_0_compat; lra|]. apply Rmult_le_compat_l; lra.
Qed.
(** in the wake it is not: on the axis the far field answers 0, where the cylinder's velocity is between gamma/2 and gamma *)
Theorem C104_wake_axis_refuted : forall g Rr cut (pts : list R3) i z, 0 < Rr -> nth_error pts i = Some (0, 0, z) -> 1/100000000 < z -> cut * Rr < z ->
  exists us uvc, vc_tang_doublet_polar (N := XN) (Fin g) (Fin Rr) (Fin cut) (map xv pts) = Ok us /\ nth_error us i = Some (Fin 0, Fin 0) /\
    nth_error (vc_tang_polar (N := XN) (Fin g) (Fin Rr) (Fin 0) (map xv pts)) i = Some (Fin 0, Fin uvc) /\ Rabs g / 2 <= Rabs uvc.
Proof.
  intros g Rr cut pts i z hR Hi Hz Hc. pose proof PI_RGT_0 as HP. destruct (axis_rho z) as [ER EL].
  destruct (ff_val _ any3 g Rr cut pts third_code hR) as (us & E & L & FF & _). specialize (FF i _ Hi).
  assert (FR : far cut Rr (0, 0, z) = true) by (unfold far; rewrite EL, Rabs_right by lra; destruct (Rlt_dec (cut * Rr) z); auto; contradiction).
  specialize (FF FR). unfold dline in FF. rewrite ER in FF. change (pz (0, 0, z)) with z in FF.
  assert (EV : doublet_line_polar_pt (N := XN) (Fin (g * (Rr * Rr) * PI)) (Fin 0, Fin z) = (Fin 0, Fin 0)).
  { unfold doublet_line_polar_pt. cbv zeta. xn. rewrite Rabs_R0, (Rabs_right z) by lra.
    rewrite (proj2 (Rltb_false z (1/100000000))), (proj2 (Rltb_true 0 (1/100000000))), (proj2 (Rltb_true (1/100000000) z)), (proj2 (Rltb_false z (- (1/100000000)))) by lra.
    reflexivity. }
  rewrite EV in FF. destruct (C51_axis g Rr pts i z hR Hi) as [V _]. cbv zeta in V.
  exists us. eexists. split; [exact E|]. split; [exact FF|]. split; [exact V|].
  assert (S : 0 < sqrt (Rr ^ 2 + z ^ 2)) by (apply sqrt_lt_R0; pose proof (pow_lt Rr 2 hR); pose proof (pow2_ge_0 z); lra).
  assert (Q : 0 < z / sqrt (Rr ^ 2 + z ^ 2)) by (apply Rdiv_lt_0_compat; lra).
  rewrite Rabs_mult. rewrite (Rabs_right (1 + _)) by lra. unfold Rdiv at 2. rewrite Rabs_mult, (Rabs_right (/ 2)) by lra. pose proof (Rabs_pos g). unfold Rdiv in *. nra.
Qed.
Example C58_case : far 6 1 (0, 0, 7) = true /\ far 6 1 (1, 0, 0) = false.
Proof.
  split; unfold far.
  - rewrite (proj2 (axis_rho 7)), Rabs_right by lra. destruct (Rlt_dec (6 * 1) 7); [reflexivity|lra].
  - assert (E : length3 (1, 0, 0) = 1) by (unfold length3, inner, px, py, pz; cbn [fst snd]; replace (1 * 1 + 0 * 0 + 0 * 0) with (1 * 1) by ring; apply sqrt_square; lra).
    rewrite E. destruct (Rlt_dec (6 * 1) 1); [lra|reflexivity].
Qed.
