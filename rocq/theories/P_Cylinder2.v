(** * Properties of VortexCylinder.py, whole arrays: C51-C53, C55-C59 *)
From Coquelicot Require Import Coquelicot.
From Coq Require Import ZArith List Bool Arith Lia String Reals Lra Psatz.
From Verif Require Import Num NumR NumX M_Elliptic M_Line M_Cylinder M_Ring M_Doublet M_Skewed L_List L_X L_Angles L_Built Spec SpecBS L_Calc L_Ell L_Cyl L_Carlson P_Line P_Ring P_Doublet P_Skewed P_Cylinder.
Import ListNotations.
Local Open Scope R_scope.
Local Notation len := List.length.

Definition rimb (Rr r z : R) : bool := Rltb (Rabs (r - Rr) / Rr) (1 / 100000000) && Rltb (Rabs (z / Rr)) (1 / 100000000).
Definition axisb (Rr r : R) : bool := Rltb r (1 / 10000000 * Rr).
Definition regb (Rr : R) (q : R * R) : bool := negb (axisb Rr (fst q) || rimb Rr (fst q) (snd q)).
Lemma rimb_spec Rr r z : reflect (rim_zone Rr r z) (rimb Rr r z).
Proof. apply iff_reflect. unfold rimb, rim_zone. rewrite andb_true_iff, !Rltb_true. reflexivity. Qed.
Lemma axisb_spec Rr r : reflect (axis_zone Rr r) (axisb Rr r).
Proof. apply iff_reflect. unfold axisb, axis_zone. rewrite Rltb_true. reflexivity. Qed.
Definition nmR (Rr : R) (q : R * R) : R * R := (nn (fst q) Rr, mm (fst q) Rr (snd q)).
Definition toR (x : X) : R := match x with Fin r => r | _ => 0 end.
(** third-kind values used at the points of an array (0 where none is used) *)
Definition vcps (PIb : list (X * X) -> list X) (Rr : R) (rz : list (R * R)) : list R :=
  scatter (map (regb Rr) rz) (map toR (PIb (map F2 (map (nmR Rr) (filter (regb Rr) rz))))) (map (fun _ => 0) rz).
(** value at one point given the third-kind value [q] *)
Definition vcR (g Rr r z q : R) : R * R :=
  if rimb Rr r z then (0, g / 4) else if axisb Rr r then (0, g / 2 * (1 + z / sqrt (z * z + Rr * Rr))) else (Cr g Rr r z, CzP g Rr r z q).
Lemma F2_len {A B} (P : A -> B -> Prop) l m : Forall2 P l m -> len l = len m.
Proof. intros H. induction H; cbn; congruence. Qed.
Lemma third_len PIb P l : third PIb P -> Forall (fun p => snd p < 1) l -> len (PIb (map F2 l)) = len l.
Proof. intros H HF. symmetry. eapply F2_len. apply H. auto. Qed.
Lemma reg_pos Rr q : 0 < Rr -> regb Rr q = true -> 0 < fst q /\ 0 < (fst q - Rr) * (fst q - Rr) + snd q * snd q.
Proof.
  intros hR H. unfold regb in H. apply negb_true_iff, orb_false_iff in H. destruct H as [A B]. destruct (axisb_spec Rr (fst q)) as [|NA]; [discriminate|].
  destruct (rimb_spec Rr (fst q) (snd q)) as [|NB]; [discriminate|]. unfold axis_zone in NA. split; [lra|]. apply not_rim_off; auto.
Qed.
Lemma args_lt Rr rz : 0 < Rr -> Forall (fun p : R * R => snd p < 1) (map (nmR Rr) (filter (regb Rr) rz)).
Proof.
  intros hR. rewrite Forall_map. apply Forall_forall. intros q Hq. apply filter_In in Hq. destruct (reg_pos Rr q hR (proj2 Hq)) as [A B]. apply mm_lt; auto; lra.
Qed.
Lemma vcps_third PIb P Rr rz : third PIb P -> 0 < Rr ->
  Forall2 (fun q v => regb Rr q = true -> fst q <> Rr -> P (nn (fst q) Rr) (mm (fst q) Rr (snd q)) v) rz (vcps PIb Rr rz).
Proof.
  intros HP hR. unfold vcps.
  eapply (scatter_Forall2 (regb Rr) _ (fun q v => fst q <> Rr -> P (nn (fst q) Rr) (mm (fst q) Rr (snd q)) v)).
  - pose proof (HP _ (args_lt Rr rz hR)) as H. apply Forall2_map_l in H. revert H. generalize (PIb (map F2 (map (nmR Rr) (filter (regb Rr) rz)))).
    assert (REG : forall q, In q (filter (regb Rr) rz) -> 0 < fst q) by (intros q Hq; apply filter_In in Hq; apply (reg_pos Rr q hR (proj2 Hq))).
    revert REG. generalize (filter (regb Rr) rz). intros l. induction l as [|a l IH]; intros REG vs H; inversion H as [|x y l1 l2 Q1 Q2]; subst; constructor.
    + intros NE. destruct Q1 as (w & -> & Pw). { apply nn_lt; auto. pose proof (REG a (or_introl eq_refl)). lra. } exact Pw.
    + apply IH; auto. intros; apply REG; right; auto.
  - auto.
  - intros a E E'. congruence.
Qed.
Lemma regb_X Rr q : 0 < Rr -> vc_normal (N := XN) (Fin Rr) (F2 q) = regb Rr q.
Proof.
  intros hR. destruct q as [r z]. unfold vc_normal, regb, F2. cbn [fst snd]. f_equal. f_equal.
  - unfold vc_isrim, rimb. xn. rewrite !xdiv_fin by lra. reflexivity.
Qed.
Lemma special_X g Rr q : 0 < Rr -> regb Rr q = false -> vc_special (N := XN) (Fin g) (Fin Rr) (F2 q) = F2 (vcR g Rr (fst q) (snd q) 0).
Proof.
  intros hR H. destruct q as [r z]. unfold vc_special, vcR, F2. cbn [fst snd].
  assert (E : vc_isrim (N := XN) (Fin Rr) (Fin r) (Fin z) = rimb Rr r z) by (unfold vc_isrim, rimb; xn; rewrite !xdiv_fin by lra; reflexivity).
  rewrite E. destruct (rimb Rr r z) eqn:Er. { xn. rewrite xdiv_fin by lra. reflexivity. }
  unfold regb in H. cbn [fst snd] in H. rewrite Er, orb_false_r in H. apply negb_false_iff in H. rewrite H.
  destruct (axis_val g Rr z hR) as (_ & _ & E3). rewrite E3. reflexivity.
Qed.
Lemma scatter_map2 {A B C D} (t : A -> bool) (f : A -> B -> C) (k : A -> C) (h : A -> D -> C) (j : B -> D) (d : D) l vals :
  len vals = len (filter t l) ->
  (forall a, In a l -> t a = false -> k a = h a d) ->
  Forall2 (fun a v => t a = true /\ f a v = h a (j v)) (filter t l) vals ->
  scatter (map t l) (map2 f (filter t l) vals) (map k l) = map2 h l (scatter (map t l) (map j vals) (map (fun _ => d) l)).
Proof.
  revert vals. induction l as [|a l IH]; intros vals L K H; [reflexivity|]. cbn [map filter scatter] in *.
  destruct (t a) eqn:E; cbn [map2 filter].
  - inversion H as [|x v l1 l2 [_ Q1] Q2]; subst. cbn [map2 map scatter]. f_equal; [exact Q1|]. apply IH; auto. intros; apply K; auto; right; auto.
  - f_equal; [apply K; auto; left; auto|]. apply IH; auto. intros; apply K; auto; right; auto.
Qed.
Theorem vc_polar_fun PIb P g Rr (pts : list R3) : third PIb P -> 0 < Rr ->
  vc_tang_polar_gen (N := XN) PIb (Fin g) (Fin Rr) (Fin 0) (map xv pts) =
  map F2 (map2 (fun q w => vcR g Rr (fst q) (snd q) w) (map rzp pts) (vcps PIb Rr (map rzp pts))).
Proof.
  intros HP hR. unfold vc_tang_polar_gen. nT. change (map xv pts) with (map F3 pts).
  assert (E : map (fun x : X * X * X => (vc_r (N := XN) x, snd x)) (map F3 pts) = map F2 (map rzp pts)).
  { rewrite !map_map. apply map_ext. intros p. rewrite vc_r_X. reflexivity. }
  nT. rewrite E. clear E. set (rz := map rzp pts) in *. clearbody rz. clear pts.
  assert (E1 : map (vc_normal (N := XN) (Fin Rr)) (map F2 rz) = map (regb Rr) rz) by (rewrite map_map; apply map_ext; intros; apply regb_X; auto).
  nT. rewrite E1. rewrite gather_map_ext. rewrite (map_map F2 (vc_special (N := XN) (Fin g) (Fin Rr))). rewrite map2_map_l.
  assert (E2 : map (vc_nm (N := XN) (Fin 0) (Fin Rr)) (map F2 (filter (regb Rr) rz)) = map F2 (map (nmR Rr) (filter (regb Rr) rz))).
  { rewrite !map_map. apply map_ext_in. intros q Hq. apply filter_In in Hq. destruct (reg_pos Rr q hR (proj2 Hq)) as [A B]. destruct q as [r z]. unfold F2, nmR. cbn [fst snd] in *. rewrite vc_nm_X by auto. reflexivity. }
  nT. rewrite E2. pose proof (HP _ (args_lt Rr rz hR)) as H3. pose proof (third_len PIb P _ HP (args_lt Rr rz hR)) as L3. rewrite map_length in L3.
  unfold vcps. set (vals := PIb (map F2 (map (nmR Rr) (filter (regb Rr) rz)))) in *. clearbody vals.
  rewrite map_map2.
  rewrite (scatter_map2 (regb Rr) (fun a v => vc_reg (N := XN) (Fin g) (Fin 0) (Fin Rr) (F2 a) v) (fun x => vc_special (N := XN) (Fin g) (Fin Rr) (F2 x))
     (fun a w => F2 (vcR g Rr (fst a) (snd a) w)) toR 0); auto.
  - intros; apply special_X; auto.
  - apply Forall2_map_l in H3. eapply Forall2_in; [|exact H3]. intros q v Hq Hv. cbn beta in *. apply filter_In in Hq. destruct Hq as [_ Hq]. split; auto.
    destruct (reg_pos Rr q hR Hq) as [A B]. destruct q as [r z]. unfold F2 at 1. cbn [fst snd] in *.
    assert (EV : vcR g Rr r z (toR v) = (Cr g Rr r z, CzP g Rr r z (toR v))).
    { unfold vcR. unfold regb in Hq. cbn [fst snd] in Hq. apply negb_true_iff, orb_false_iff in Hq. destruct Hq as [-> ->]. reflexivity. }
    rewrite EV. apply vc_reg_X; auto. intros NE. unfold nmR in Hv. cbn [fst snd] in Hv. destruct (Hv (nn_lt r Rr ltac:(lra) hR NE)) as (w & -> & _). reflexivity.
Qed.
Notation vcP := (vc_tang_polar (N := XN)).
Notation vcU := (vc_tang_u (N := XN)).
Lemma vc_at PIb P g Rr pts i p : third PIb P -> 0 < Rr -> nth_error pts i = Some p ->
  exists q, nth_error (vc_tang_polar_gen (N := XN) PIb (Fin g) (Fin Rr) (Fin 0) (map xv pts)) i = Some (F2 (vcR g Rr (rho p) (pz p) q)) /\
    nth_error (vcps PIb Rr (map rzp pts)) i = Some q /\ (regb Rr (rzp p) = true -> rho p <> Rr -> P (nn (rho p) Rr) (mm (rho p) Rr (pz p)) q).
Proof.
  intros HP hR Hi. rewrite (vc_polar_fun PIb P g Rr pts HP hR). pose proof (vcps_third PIb P Rr (map rzp pts) HP hR) as H3. pose proof (F2_len _ _ _ H3) as L.
  assert (Hi' : nth_error (map rzp pts) i = Some (rzp p)) by (rewrite nth_error_map, Hi; reflexivity).
  destruct (nth_error (vcps PIb Rr (map rzp pts)) i) as [q|] eqn:E.
  - exists q. split; [|split; auto].
    + rewrite nth_error_map, map2_nth_error, Hi', E. reflexivity.
    + exact (Forall2_nth _ _ _ _ _ _ H3 Hi' E).
  - exfalso. apply nth_error_None in E. assert (nth_error (map rzp pts) i <> None) by congruence. apply nth_error_Some in H. lia.
Qed.
Definition azim (p : R3) : R := Ratan2 (py p) (px p).
Lemma cart2_X p (u : R * R) : cart_of_polar2 (N := XN) (xv p) (F2 u) = xv (fst u * cos (azim p), fst u * sin (azim p), snd u).
Proof. destruct p as [[x y] z]. reflexivity. Qed.
Lemma azim_polar p : px p = rho p * cos (azim p) /\ py p = rho p * sin (azim p).
Proof. destruct p as [[x y] z]. unfold rho, azim, px, py. cbn [fst snd]. pose proof (Ratan2_polar_all y x) as [A B]. split; congruence. Qed.
Lemma vcu_at PIb P g Rr pts i p : third PIb P -> 0 < Rr -> nth_error pts i = Some p ->
  exists q, nth_error (vc_tang_polar_gen (N := XN) PIb (Fin g) (Fin Rr) (Fin 0) (map xv pts)) i = Some (F2 (vcR g Rr (rho p) (pz p) q)) /\
    nth_error (vc_tang_u_gen (N := XN) PIb (Fin g) (Fin Rr) (Fin 0) (map xv pts)) i = 
      Some (xv (fst (vcR g Rr (rho p) (pz p) q) * cos (azim p), fst (vcR g Rr (rho p) (pz p) q) * sin (azim p), snd (vcR g Rr (rho p) (pz p) q))) /\
    nth_error (vcps PIb Rr (map rzp pts)) i = Some q /\ (regb Rr (rzp p) = true -> rho p <> Rr -> P (nn (rho p) Rr) (mm (rho p) Rr (pz p)) q).
Proof.
  intros HP hR Hi. destruct (vc_at PIb P g Rr pts i p HP hR Hi) as (q & E1 & E2). exists q. split; auto. split; auto.
  unfold vc_tang_u_gen. rewrite map2_nth_error, E1. rewrite nth_error_map, Hi. cbn [option_map]. rewrite cart2_X. reflexivity.
Qed.

(** ** C51: the axis and the rotor disk *)
Theorem C51_axis : forall g Rr (pts : list R3) i z, 0 < Rr -> nth_error pts i = Some (0, 0, z) ->
  let uz := g / 2 * (1 + z / sqrt (Rr ^ 2 + z ^ 2)) in
  nth_error (vcP (Fin g) (Fin Rr) (Fin 0) (map xv pts)) i = Some (Fin 0, Fin uz) /\
  nth_error (vcU (Fin g) (Fin Rr) (Fin 0) (map xv pts)) i = Some (xv (0, 0, uz)).
Proof.
  intros g Rr pts i z hR Hi uz. destruct (vcu_at _ _ g Rr pts i _ third_code hR Hi) as (q & E1 & E2 & _ & _). unfold vc_tang_polar, vc_tang_u. rewrite E1, E2.
  assert (ER : rho (0, 0, z) = 0) by (unfold rho, px, py; cbn [fst snd]; replace (0 * 0 + 0 * 0) with 0 by ring; apply sqrt_0). rewrite ER. change (pz (0, 0, z)) with z.
  assert (V : vcR g Rr 0 z q = (0, uz)).
  { unfold vcR. destruct (rimb_spec Rr 0 z) as [[Z _]|_].
    { exfalso. rewrite Rminus_0_l, Rabs_Ropp, Rabs_right in Z by lra. replace (Rr / Rr) with 1 in Z by (field; lra). lra. }
    destruct (axisb_spec Rr 0) as [_|Z]; [|exfalso; apply Z; unfold axis_zone; lra].
    unfold uz. replace (z * z + Rr * Rr) with (Rr ^ 2 + z ^ 2) by ring. reflexivity. }
  rewrite V. cbn [fst snd]. rewrite !Rmult_0_l. split; reflexivity.
Qed.
Theorem C51_rotor_disk : forall g Rr (pts : list R3) i x y, 0 < Rr -> nth_error pts i = Some (x, y, 0) ->
  let r := sqrt (x ^ 2 + y ^ 2) in
  exists ur uz ux uy, nth_error (vcP (Fin g) (Fin Rr) (Fin 0) (map xv pts)) i = Some (Fin ur, Fin uz) /\
    nth_error (vcU (Fin g) (Fin Rr) (Fin 0) (map xv pts)) i = Some (xv (ux, uy, uz)) /\
    (Rabs (r - Rr) / Rr < 1 / 100000000 -> uz = g / 4) /\
    (1 / 100000000 <= Rabs (r - Rr) / Rr -> (r < Rr -> uz = g / 2) /\ (Rr < r -> uz = 0)).
Proof.
  intros g Rr pts i x y hR Hi r. destruct (vcu_at _ _ g Rr pts i _ third_code hR Hi) as (q & E1 & E2 & _ & _). unfold vc_tang_polar, vc_tang_u.
  change (pz (x, y, 0)) with 0 in *.
  assert (ER : rho (x, y, 0) = r) by (unfold rho, px, py, r; cbn [fst snd]; f_equal; ring). rewrite ER in *.
  set (v := vcR g Rr r 0 q) in *. do 4 eexists. split; [exact E1|]. split; [exact E2|].
  assert (Z0 : Rabs (0 / Rr) < 1 / 100000000) by (unfold Rdiv at 1; rewrite Rmult_0_l, Rabs_R0; lra).
  assert (hr : 0 <= r) by apply sqrt_pos.
  unfold v, vcR. destruct (rimb_spec Rr r 0) as [[Za Zb]|Z]; split.
  - intros _. reflexivity.
  - intros; lra.
  - intros H. exfalso. apply Z. split; auto.
  - intros _. destruct (axisb_spec Rr r) as [A|A].
    + unfold axis_zone in A. cbn [snd]. split; intros; [|lra]. unfold Rdiv at 2. rewrite Rmult_0_l. field.
    + cbn [snd]. unfold CzP. split; intros H.
      * destruct (Req_EM_T r Rr); [lra|]. destruct (Rlt_dec r Rr); [|lra]. unfold Rdiv at 2. rewrite !Rmult_0_l. field.
      * destruct (Req_EM_T r Rr); [lra|]. destruct (Rlt_dec r Rr); [lra|]. unfold Rdiv at 2. rewrite !Rmult_0_l. field.
Qed.
Example C51_case : nth_error [(1, 2, 3); (1/2, 0, 0)] 1 = Some (1/2, 0, 0) /\ sqrt ((1/2) ^ 2 + 0 ^ 2) < 1 /\ 1 / 100000000 <= Rabs (sqrt ((1/2) ^ 2 + 0 ^ 2) - 1) / 1.
Proof.
  assert (E : sqrt ((1/2) ^ 2 + 0 ^ 2) = 1/2) by (replace ((1/2) ^ 2 + 0 ^ 2) with ((1/2) * (1/2)) by field; apply sqrt_square; lra).
  rewrite E. split; [reflexivity|]. split; [lra|]. rewrite Rabs_left by lra. lra.
Qed.

(** ** C52: finite everywhere *)
Theorem C52_finite_everywhere : forall g Rr (pts : list R3), 0 < Rr ->
  (exists v : list (R * R), len v = len pts /\ vcP (Fin g) (Fin Rr) (Fin 0) (map xv pts) = map F2 v) /\
  (exists v : list R3, len v = len pts /\ vcU (Fin g) (Fin Rr) (Fin 0) (map xv pts) = map xv v).
Proof.
  intros g Rr pts hR. assert (A : exists v : list (R * R), len v = len pts /\ vcP (Fin g) (Fin Rr) (Fin 0) (map xv pts) = map F2 v).
  { eexists. split; [|apply (vc_polar_fun _ _ g Rr pts third_code hR)].
    rewrite map2_length. rewrite <- (F2_len _ _ _ (vcps_third _ _ Rr (map rzp pts) third_code hR)). rewrite map_length. lia. }
  split; auto. destruct A as (v & L & E). unfold vc_tang_u, vc_tang_u_gen. fold (vc_tang_polar (N := XN)).
  change (vc_tang_polar_gen (N := XN) ellipticPiCarlson) with vcP. rewrite E.
  exists (map2 (fun (p : R3) (u : R * R) => (fst u * cos (azim p), fst u * sin (azim p), snd u)) pts v). split; [rewrite map2_length; lia|].
  rewrite map_map2. rewrite map2_map_l, map2_map_r. apply map2_ext. intros. apply cart2_X.
Qed.

(** ** C53: symmetries *)
Lemma vcps_congr PIb Rr Rr' rz rz' : map (regb Rr) rz = map (regb Rr') rz' ->
  map (nmR Rr) (filter (regb Rr) rz) = map (nmR Rr') (filter (regb Rr') rz') -> vcps PIb Rr rz = vcps PIb Rr' rz'.
Proof.
  intros E1 E2. unfold vcps. rewrite E1, E2. f_equal.
  assert (L : len rz = len rz') by (apply (f_equal (@List.length bool)) in E1; rewrite !map_length in E1; exact E1).
  clear -L. revert rz' L. induction rz as [|a rz IH]; intros [|b rz'] L; try discriminate; cbn [map]; [reflexivity|]. f_equal. apply IH. now injection L.
Qed.
Lemma vcps_map PIb Rr Rr' (f : R * R -> R * R) rz : (forall q, In q rz -> regb Rr' (f q) = regb Rr q /\ (regb Rr q = true -> nmR Rr' (f q) = nmR Rr q)) ->
  vcps PIb Rr' (map f rz) = vcps PIb Rr rz.
Proof.
  intros H. apply vcps_congr.
  - rewrite map_map. apply map_ext_in. intros; apply H; auto.
  - induction rz as [|a rz IH]; [reflexivity|]. cbn [map filter]. destruct (H a (or_introl eq_refl)) as [H1 H2]. rewrite H1.
    assert (IH' := IH (fun q Hq => H q (or_intror Hq))). destruct (regb Rr a) eqn:E; cbn [map]; auto. rewrite H2 by auto. f_equal. auto.
Qed.
Definition flip_z (p : R3) : R3 := (px p, py p, - pz p).
Lemma mm_even r Rr z : mm r Rr (- z) = mm r Rr z.
Proof. unfold mm, a2. f_equal. ring. Qed.
Lemma vcR_flip g Rr r z q : 0 < Rr -> 0 <= r -> exists ur uz uz', vcR g Rr r z q = (ur, uz) /\ vcR g Rr r (- z) q = (ur, uz') /\
  uz + uz' = if rimb Rr r z then g / 2 else if Rlt_dec r Rr then g else if Req_EM_T r Rr then g / 2 else 0.
Proof.
  intros hR hr. unfold vcR.
  assert (E : rimb Rr r (- z) = rimb Rr r z) by (unfold rimb; replace (- z / Rr) with (- (z / Rr)) by (field; lra); rewrite Rabs_Ropp; reflexivity).
  rewrite E. destruct (rimb Rr r z) eqn:Er. { do 3 eexists. do 2 (split; [reflexivity|]). field. }
  destruct (axisb_spec Rr r) as [A|A].
  - do 3 eexists. do 2 (split; [reflexivity|]). unfold axis_zone in A. destruct (Rlt_dec r Rr); [|lra]. replace (- z * - z + Rr * Rr) with (z * z + Rr * Rr) by ring.
    pose proof (Rsq_pos z). pose proof (Rsq_lt Rr ltac:(lra)). assert (0 < sqrt (z * z + Rr * Rr)) by (apply sqrt_lt_R0; lra). field. lra.
  - destruct (rimb_spec Rr r z) as [|NR]; [discriminate|]. pose proof (not_rim_off Rr r z hR NR) as off. unfold axis_zone in A.
    pose proof (a2_pos r Rr z off hr hR) as HA. assert (0 < sqrt (a2 r Rr z)) by (apply sqrt_lt_R0; auto). pose proof PI_RGT_0.
    assert (off' : 0 < (r - Rr) * (r - Rr) + - z * - z) by (replace (- z * - z) with (z * z) by ring; auto).
    assert (EC : Cr g Rr r (- z) = Cr g Rr r z) by (rewrite !Cr_val by (auto; lra); rewrite mm_even; reflexivity).
    rewrite EC. do 3 eexists. do 2 (split; [reflexivity|]). unfold CzP. rewrite mm_even. replace (a2 r Rr (- z)) with (a2 r Rr z) by (unfold a2; ring).
    destruct (Rlt_dec r Rr), (Req_EM_T r Rr); try lra; field; repeat split; lra.
Qed.
Theorem C53_mirror : forall g Rr (pts : list R3) i p, 0 < Rr -> nth_error pts i = Some p ->
  let r := sqrt (px p ^ 2 + py p ^ 2) in
  exists ur uz uz', nth_error (vcP (Fin g) (Fin Rr) (Fin 0) (map xv pts)) i = Some (Fin ur, Fin uz) /\
    nth_error (vcP (Fin g) (Fin Rr) (Fin 0) (map xv (map flip_z pts))) i = Some (Fin ur, Fin uz') /\
    (Rabs (r - Rr) / Rr < 1 / 100000000 /\ Rabs (pz p / Rr) < 1 / 100000000 -> uz + uz' = g / 2) /\
    (~ (Rabs (r - Rr) / Rr < 1 / 100000000 /\ Rabs (pz p / Rr) < 1 / 100000000) ->
       (r < Rr -> (uz - g / 2) = - (uz' - g / 2)) /\ (r = Rr -> uz - g / 4 = - (uz' - g / 4)) /\ (Rr < r -> uz = - uz')).
Proof.
  intros g Rr pts i p hR Hi r. destruct (vc_at _ _ g Rr pts i _ third_code hR Hi) as (q & E1 & E2 & _).
  assert (Hi' : nth_error (map flip_z pts) i = Some (flip_z p)) by (rewrite nth_error_map, Hi; reflexivity).
  destruct (vc_at _ _ g Rr (map flip_z pts) i _ third_code hR Hi') as (q' & E1' & E2' & _).
  assert (EQ : vcps (ellipticPiCarlson (N := XN)) Rr (map rzp (map flip_z pts)) = vcps (ellipticPiCarlson (N := XN)) Rr (map rzp pts)).
  { replace (map rzp (map flip_z pts)) with (map (fun q : R * R => (fst q, - snd q)) (map rzp pts)) by (rewrite !map_map; reflexivity).
    apply vcps_map. intros [a b] _. split.
    - unfold regb, rimb. cbn [fst snd]. replace (- b / Rr) with (- (b / Rr)) by (field; lra). rewrite Rabs_Ropp. reflexivity.
    - intros _. unfold nmR. cbn [fst snd]. rewrite mm_even. reflexivity. }
  rewrite EQ in E2'. assert (q' = q) by congruence. subst q'. unfold vc_tang_polar. rewrite E1, E1'.
  assert (ER : rho p = r) by (unfold rho, r; f_equal; ring). assert (ER' : rho (flip_z p) = r) by (unfold rho, flip_z, r, px, py; cbn [fst snd]; f_equal; ring).
  rewrite ER, ER'. change (pz (flip_z p)) with (- pz p). assert (hr : 0 <= r) by apply sqrt_pos.
  destruct (vcR_flip g Rr r (pz p) q hR hr) as (ur & uz & uz' & V1 & V2 & V3). rewrite V1, V2. exists ur, uz, uz'. do 2 (split; [reflexivity|]).
  destruct (rimb_spec Rr r (pz p)) as [Z|Z]; unfold rim_zone in Z.
  - split; [auto|intros; contradiction].
  - split; [intros; contradiction|]. intros _. destruct (Rlt_dec r Rr), (Req_EM_T r Rr); repeat split; intros; lra.
Qed.
Lemma vcR_lin g h c Rr r z q : vcR (g + c * h) Rr r z q = (fst (vcR g Rr r z q) + c * fst (vcR h Rr r z q), snd (vcR g Rr r z q) + c * snd (vcR h Rr r z q)).
Proof.
  unfold vcR. destruct (rimb Rr r z); [cbn [fst snd]; f_equal; field|]. destruct (axisb Rr r); [cbn [fst snd]; f_equal; lra|].
  cbn [fst snd]. f_equal.
  - unfold Cr, Rdiv. ring.
  - unfold CzP. destruct (Req_EM_T r Rr); unfold Rdiv; ring.
Qed.
(** u(g + c h) = u(g) + c u(h) *)
Theorem C53_linear_in_gamma : forall g h c Rr (pts : list R3), 0 < Rr ->
  exists v w : list R3, len v = len pts /\ len w = len pts /\
    vcU (Fin g) (Fin Rr) (Fin 0) (map xv pts) = map xv v /\ vcU (Fin h) (Fin Rr) (Fin 0) (map xv pts) = map xv w /\
    vcU (Fin (g + c * h)) (Fin Rr) (Fin 0) (map xv pts) = map xv (map2 (fun a b => add3 a (scal3 c b)) v w).
Proof.
  intros g h c Rr pts hR. pose proof (vc_polar_fun _ _ g Rr pts third_code hR) as E1. pose proof (vc_polar_fun _ _ h Rr pts third_code hR) as E2.
  pose proof (vc_polar_fun _ _ (g + c * h) Rr pts third_code hR) as E3. set (ps := vcps (ellipticPiCarlson (N := XN)) Rr (map rzp pts)) in *.
  assert (LP : len ps = len pts). { unfold ps. rewrite <- (F2_len _ _ _ (vcps_third _ _ Rr (map rzp pts) third_code hR)). apply map_length. }
  set (val := fun k (p : R3) w => let u := vcR k Rr (rho p) (pz p) w in (fst u * cos (azim p), fst u * sin (azim p), snd u) : R3).
  assert (K : forall k, vcU (Fin k) (Fin Rr) (Fin 0) (map xv pts) = map xv (map2 (val k) pts ps)).
  { intros k. unfold vc_tang_u, vc_tang_u_gen. rewrite (vc_polar_fun _ _ k Rr pts third_code hR). fold ps. rewrite !map_map2. rewrite !map2_map_l.
    assert (GEN : forall l m, map2 (fun (a : R3) (b : X * X) => cart_of_polar2 (N := XN) (xv a) b) l (map2 (fun (a : R3) (b : R) => F2 (vcR k Rr (fst (rzp a)) (snd (rzp a)) b)) l m)
         = map2 (fun (a : R3) (b : R) => xv (val k a b)) l m).
    { induction l as [|a l IH]; intros [|b m]; cbn [map2]; auto. rewrite cart2_X, IH. reflexivity. }
    apply GEN. }
  exists (map2 (val g) pts ps), (map2 (val h) pts ps). rewrite !K, !map2_length, LP. repeat split; try lia. f_equal.
  assert (GEN : forall l m, map2 (val (g + c * h)) l m = map2 (fun a b : R3 => add3 a (scal3 c b)) (map2 (val g) l m) (map2 (val h) l m)).
  { induction l as [|a l IH]; intros [|b m]; cbn [map2]; auto. rewrite IH. f_equal. unfold val. rewrite vcR_lin. unfold add3, scal3, px, py, pz. cbn [fst snd]. apply tri; ring. }
  apply GEN.
Qed.
Lemma nm_scale s r Rr z : 0 < s -> 0 < Rr -> 0 <= r -> 0 < (r - Rr) * (r - Rr) + z * z -> mm (s * r) (s * Rr) (s * z) = mm r Rr z /\ nn (s * r) (s * Rr) = nn r Rr /\ a2 (s * r) (s * Rr) (s * z) = s * s * a2 r Rr z.
Proof.
  intros hs hR hr off. pose proof (a2_pos r Rr z off hr hR) as A. assert (E : a2 (s * r) (s * Rr) (s * z) = s * s * a2 r Rr z) by (unfold a2; ring).
  split; [|split; auto].
  - unfold mm. rewrite E. field. split; lra.
  - unfold nn. replace (s * r + s * Rr) with (s * (r + Rr)) by ring. field. split; lra.
Qed.
Lemma zone_scale s Rr r z : 0 < s -> 0 < Rr -> rimb (s * Rr) (s * r) (s * z) = rimb Rr r z /\ axisb (s * Rr) (s * r) = axisb Rr r.
Proof.
  intros hs hR. split.
  - unfold rimb. replace (s * r - s * Rr) with (s * (r - Rr)) by ring. rewrite Rabs_mult, (Rabs_right s) by lra.
    replace (s * Rabs (r - Rr) / (s * Rr)) with (Rabs (r - Rr) / Rr) by (field; lra). replace (s * z / (s * Rr)) with (z / Rr) by (field; lra). reflexivity.
  - unfold axisb, Rltb. destruct (Rlt_dec (s * r) (1 / 10000000 * (s * Rr))) as [A|A], (Rlt_dec r (1 / 10000000 * Rr)) as [B|B]; auto; exfalso.
    + apply B. apply Rmult_lt_reg_l with s; auto. lra.
    + apply A. replace (1 / 10000000 * (s * Rr)) with (s * (1 / 10000000 * Rr)) by ring. apply Rmult_lt_compat_l; auto.
Qed.
Lemma vcR_scale s g Rr r z q : 0 < s -> 0 < Rr -> 0 <= r -> vcR g (s * Rr) (s * r) (s * z) q = vcR g Rr r z q.
Proof.
  intros hs hR hr. unfold vcR. destruct (zone_scale s Rr r z hs hR) as [-> ->]. destruct (rimb_spec Rr r z) as [|NR]; [reflexivity|]. destruct (axisb_spec Rr r) as [A|A].
  - f_equal. f_equal. f_equal. replace (s * z * (s * z) + s * Rr * (s * Rr)) with ((s * s) * (z * z + Rr * Rr)) by ring.
    pose proof (Rsq_pos z). pose proof (Rsq_lt Rr ltac:(lra)). rewrite sqrt_mult_alt by (apply Rle_trans with (s * s); [apply Rsq_pos|lra]). rewrite sqrt_square by lra.
    assert (0 < sqrt (z * z + Rr * Rr)) by (apply sqrt_lt_R0; lra). field. split; lra.
  - pose proof (not_rim_off Rr r z hR NR) as off. unfold axis_zone in A. assert (hr0 : 0 < r) by lra. destruct (nm_scale s r Rr z hs hR hr off) as (EM & EN & EA).
    assert (hsr : 0 < s * r) by (apply Rmult_lt_0_compat; auto). assert (hsR : 0 < s * Rr) by (apply Rmult_lt_0_compat; auto).
    pose proof (a2_pos r Rr z off hr hR) as HA. assert (0 < sqrt (a2 r Rr z)) by (apply sqrt_lt_R0; auto). pose proof PI_RGT_0.
    assert (off' : 0 < (s * r - s * Rr) * (s * r - s * Rr) + s * z * (s * z)).
    { replace ((s * r - s * Rr) * (s * r - s * Rr) + s * z * (s * z)) with (s * s * ((r - Rr) * (r - Rr) + z * z)) by ring. apply Rmult_lt_0_compat; auto. apply Rmult_lt_0_compat; auto. }
    f_equal.
    + rewrite !Cr_val by auto. rewrite EM. replace (s * Rr / (s * r)) with (Rr / r) by (field; lra). reflexivity.
    + unfold CzP. rewrite EM, EA. rewrite sqrt_mult_alt by (apply Rsq_pos). rewrite sqrt_square by lra.
      replace (s * z / (PI * (s * sqrt (a2 r Rr z)))) with (z / (PI * sqrt (a2 r Rr z))) by (field; repeat split; lra).
      replace ((s * Rr - s * r) / (s * Rr + s * r)) with ((Rr - r) / (Rr + r)) by (field; split; lra).
      assert (IFF1 : s * r = s * Rr <-> r = Rr) by (split; intros E; [apply Rmult_eq_reg_l with s; lra|rewrite E; auto]).
      assert (IFF2 : s * r < s * Rr <-> r < Rr) by (split; intros E; [apply Rmult_lt_reg_l with s; lra|apply Rmult_lt_compat_l; auto]).
      destruct (Req_EM_T (s * r) (s * Rr)), (Req_EM_T r Rr); try tauto. destruct (Rlt_dec (s * r) (s * Rr)), (Rlt_dec r Rr); tauto.
Qed.
(** same intensity, all lengths multiplied by [s] *)
Theorem C53_length_scaling : forall s g Rr (pts : list R3), 0 < s -> 0 < Rr ->
  vcP (Fin g) (Fin (s * Rr)) (Fin 0) (map xv (map (scal3 s) pts)) = vcP (Fin g) (Fin Rr) (Fin 0) (map xv pts).
Proof.
  intros s g Rr pts hs hR. assert (hsR : 0 < s * Rr) by (apply Rmult_lt_0_compat; auto). unfold vc_tang_polar.
  rewrite (vc_polar_fun _ _ g (s * Rr) (map (scal3 s) pts) third_code hsR), (vc_polar_fun _ _ g Rr pts third_code hR).
  assert (E : map rzp (map (scal3 s) pts) = map (fun q : R * R => (s * fst q, s * snd q)) (map rzp pts)).
  { rewrite !map_map. apply map_ext. intros p. unfold rzp. cbn [fst snd]. f_equal. unfold rho, scal3, px, py. cbn [fst snd].
    replace (s * fst (fst p) * (s * fst (fst p)) + s * snd (fst p) * (s * snd (fst p))) with ((s * s) * (fst (fst p) * fst (fst p) + snd (fst p) * snd (fst p))) by ring.
    rewrite sqrt_mult_alt by apply Rsq_pos. rewrite sqrt_square by lra. reflexivity. }
  rewrite E. f_equal. assert (NN : Forall (fun q => 0 <= fst q) (map rzp pts)) by (rewrite Forall_map; apply Forall_forall; intros; apply rho_ge).
  rewrite (vcps_map _ Rr (s * Rr)).
  - rewrite map2_map_l. cbn [fst snd]. rewrite Forall_forall in NN. revert NN. generalize (vcps (ellipticPiCarlson (N := XN)) Rr (map rzp pts)). generalize (map rzp pts).
    induction l as [|a l IH]; intros [|b m] NN; cbn [map2]; auto. rewrite vcR_scale; auto; [|apply NN; left; auto]. f_equal. apply IH. intros; apply NN; right; auto.
  - intros [r z] Hq. rewrite Forall_forall in NN. specialize (NN _ Hq). cbn [fst] in NN. assert (E2 : regb (s * Rr) (s * fst (r, z), s * snd (r, z)) = regb Rr (r, z)).
    { unfold regb. cbn [fst snd]. destruct (zone_scale s Rr r z hs hR) as [-> ->]. reflexivity. }
    split; auto. intros Ht. destruct (reg_pos Rr _ hR Ht) as [A B]. cbn [fst snd] in *. unfold nmR. cbn [fst snd]. destruct (nm_scale s r Rr z hs hR NN B) as (EM & EN & _). rewrite EM, EN. reflexivity.
Qed.
Lemma rho_rot phi p : rho (rotz phi p) = rho p.
Proof.
  unfold rho, rotz, px, py. cbn [fst snd]. f_equal. pose proof (sin2_cos2 phi) as S. unfold Rsqr in S.
  transitivity ((sin phi * sin phi + cos phi * cos phi) * (fst (fst p) * fst (fst p) + snd (fst p) * snd (fst p))); [ring|rewrite S; ring].
Qed.
(** rotating the points about the axis leaves (u_r,u_z) unchanged and rotates the Cartesian velocity *)
Theorem C53_axisymmetric : forall phi g Rr (pts : list R3), 0 < Rr ->
  vcP (Fin g) (Fin Rr) (Fin 0) (map xv (map (rotz phi) pts)) = vcP (Fin g) (Fin Rr) (Fin 0) (map xv pts) /\
  exists v : list R3, len v = len pts /\ vcU (Fin g) (Fin Rr) (Fin 0) (map xv pts) = map xv v /\
     vcU (Fin g) (Fin Rr) (Fin 0) (map xv (map (rotz phi) pts)) = map xv (map (rotz phi) v).
Proof.
  intros phi g Rr pts hR.
  assert (E : map rzp (map (rotz phi) pts) = map rzp pts) by (rewrite map_map; apply map_ext; intros p; unfold rzp; rewrite rho_rot; reflexivity).
  pose proof (vc_polar_fun _ _ g Rr (map (rotz phi) pts) third_code hR) as E1. pose proof (vc_polar_fun _ _ g Rr pts third_code hR) as E2. rewrite E in E1.
  split; [unfold vc_tang_polar; congruence|].
  set (ps := vcps (ellipticPiCarlson (N := XN)) Rr (map rzp pts)) in *.
  assert (LP : len ps = len pts). { unfold ps. rewrite <- (F2_len _ _ _ (vcps_third _ _ Rr (map rzp pts) third_code hR)). apply map_length. }
  set (val := fun (p : R3) w => let u := vcR g Rr (rho p) (pz p) w in (fst u * cos (azim p), fst u * sin (azim p), snd u) : R3).
  exists (map2 val pts ps). split; [rewrite map2_length; lia|].
  unfold vc_tang_u, vc_tang_u_gen. rewrite E1, E2. rewrite !map_map2. rewrite !map2_map_l. split.
  - assert (GEN : forall l m, map2 (fun (a : R3) (b : X * X) => cart_of_polar2 (N := XN) (xv a) b) l (map2 (fun (a : R3) (b : R) => F2 (vcR g Rr (fst (rzp a)) (snd (rzp a)) b)) l m)
         = map2 (fun (a : R3) (b : R) => xv (val a b)) l m).
    { induction l as [|a l IH]; intros [|b m]; cbn [map2]; auto. rewrite cart2_X, IH. reflexivity. }
    apply GEN.
  - assert (GEN : forall l m, map2 (fun (a : R3) (b : X * X) => cart_of_polar2 (N := XN) (xv (rotz phi a)) b) l (map2 (fun (a : R3) (b : R) => F2 (vcR g Rr (fst (rzp a)) (snd (rzp a)) b)) l m)
         = map2 (fun (a : R3) (b : R) => xv (rotz phi (val a b))) l m).
    { induction l as [|a l IH]; intros [|b m]; cbn [map2]; auto. rewrite cart2_X, IH. f_equal. f_equal.
      set (u := vcR g Rr (fst (rzp a)) (snd (rzp a)) b). change (val a b) with (fst u * cos (azim a), fst u * sin (azim a), snd u).
      destruct (azim_polar a) as [A1 A2]. destruct (azim_polar (rotz phi a)) as [B1 B2]. rewrite rho_rot in *.
      destruct (Req_dec (rho a) 0) as [Z|Z].
      - assert (U0 : fst u = 0).
        { unfold u, vcR, rzp. cbn [fst snd]. rewrite Z. destruct (rimb_spec Rr 0 (pz a)) as [[Zr _]|_]; [reflexivity|].
          destruct (axisb_spec Rr 0) as [_|Z']; [reflexivity|exfalso; apply Z'; unfold axis_zone; lra]. }
        unfold rotz, px, py, pz. cbn [fst snd]. rewrite U0. apply tri; ring.
      - assert (C1 : cos (azim (rotz phi a)) = cos phi * cos (azim a) - sin phi * sin (azim a)).
        { apply Rmult_eq_reg_l with (rho a); auto. rewrite <- B1. unfold rotz at 1, px at 1. cbn [fst snd]. rewrite A1, A2. ring. }
        assert (C2 : sin (azim (rotz phi a)) = sin phi * cos (azim a) + cos phi * sin (azim a)).
        { apply Rmult_eq_reg_l with (rho a); auto. rewrite <- B2. unfold rotz at 1, py at 1. cbn [fst snd]. rewrite A1, A2. ring. }
        rewrite C1, C2. unfold rotz, px, py, pz. cbn [fst snd]. apply tri; ring. }
    apply GEN.
Qed.

(** ** C55: the finite cylinder, C56: the raw formula *)
Definition sub2 (a b : R * R) : R * R := (fst a - fst b, snd a - snd b).
(** radius outside the axis zone and off the cylinder surface *)
Definition plain (Rr : R) (p : R3) : Prop := 1 / 10000000 * Rr <= rho p /\ 1 / 100000000 <= Rabs (rho p - Rr) / Rr.
Lemma plain_reg Rr r z : 0 < Rr -> 1 / 10000000 * Rr <= r -> 1 / 100000000 <= Rabs (r - Rr) / Rr -> regb Rr (r, z) = true /\ r <> Rr /\ 0 < r.
Proof.
  intros hR H1 H2. split; [|split; [|lra]].
  - unfold regb, axisb, rimb. cbn [fst snd]. rewrite (proj2 (Rltb_false r _)) by lra. rewrite (proj2 (Rltb_false (Rabs (r - Rr) / Rr) _)) by lra. reflexivity.
  - intros E. rewrite E, Rminus_diag_eq, Rabs_R0 in H2 by reflexivity. unfold Rdiv in H2. rewrite Rmult_0_l in H2. lra.
Qed.
Lemma filter_all {A} (t : A -> bool) l : Forall (fun a => t a = true) l -> filter t l = l.
Proof. induction 1 as [|a l H _ IH]; cbn; auto. rewrite H, IH. reflexivity. Qed.
Lemma scatter_all {A B} (t : A -> bool) (v d : list B) l : Forall (fun a => t a = true) l -> len v = len l -> len d = len l -> scatter (map t l) v d = v.
Proof.
  intros H. revert v d. induction H as [|a l H _ IH]; intros v d Lv Ld; destruct v, d; try discriminate; cbn; auto. rewrite H. f_equal. apply IH; auto.
Qed.
Lemma vcps_all PIb P Rr rz : third PIb P -> 0 < Rr -> Forall (fun q => regb Rr q = true) rz -> vcps PIb Rr rz = map toR (PIb (map F2 (map (nmR Rr) rz))).
Proof.
  intros HP hR H. unfold vcps. rewrite filter_all by auto. apply scatter_all; auto; [|apply map_length]. rewrite map_length.
  pose proof (args_lt Rr rz hR) as AL. rewrite filter_all in AL by auto. rewrite (third_len PIb P _ HP AL). apply map_length.
Qed.
Lemma cyl_fin_X g Rr z1 z2 r z p1 p2 : 0 < r -> 0 < Rr -> r <> Rr ->
  cyl_fin_pt (N := XN) (Fin g) (Fin Rr) (Fin z1) (Fin z2) (Fin r, Fin z) (Fin p1) (Fin p2) =
  (Fin (Cr g Rr r (z - z1) - Cr g Rr r (z - z2)), Fin (CzP g Rr r (z - z1) p1 - CzP g Rr r (z - z2) p2)).
Proof.
  intros hr hR NE. pose proof PI_RGT_0 as HP.
  assert (O : forall w, 0 < (r - Rr) * (r - Rr) + w * w) by (intros w; pose proof (Rsq_lt (r - Rr) ltac:(lra)); pose proof (Rsq_pos w); lra).
  assert (HA : forall w, 0 < a2 r Rr w) by (intros w; apply a2_pos; auto; lra).
  assert (SA : forall w, 0 < sqrt (a2 r Rr w)) by (intros w; apply sqrt_lt_R0; auto).
  destruct (k_val r Rr (z - z1) hr hR (O _)) as (K1 & K2 & K3 & K4). destruct (k_val r Rr (z - z2) hr hR (O _)) as (L1 & L2 & _ & _). cbv zeta in *.
  pose proof (mm_lt r Rr (z - z1) (O _) ltac:(lra) hR) as M1. pose proof (mm_ge r Rr (z - z1) (O _) ltac:(lra) hR) as M0.
  pose proof (mm_lt r Rr (z - z2) (O _) ltac:(lra) hR) as N1. pose proof (mm_ge r Rr (z - z2) (O _) ltac:(lra) hR) as N0.
  assert (Q : 0 < Rr / r) by (apply Rdiv_lt_0_compat; auto). assert (P : 0 < r * Rr) by (apply Rmult_lt_0_compat; auto).
  unfold cyl_fin_pt. xn.
  replace ((Rr + r) * (Rr + r) + (z - z1) * (z - z1)) with (a2 r Rr (z - z1)) by (unfold a2; ring).
  replace ((Rr + r) * (Rr + r) + (z - z2) * (z - z2)) with (a2 r Rr (z - z2)) by (unfold a2; ring).
  rewrite (xdiv_fin _ (a2 r Rr (z - z1))) by (pose proof (HA (z - z1)); lra). rewrite (xdiv_fin _ (a2 r Rr (z - z2))) by (pose proof (HA (z - z2)); lra).
  fold (mm r Rr (z - z1)). fold (mm r Rr (z - z2)). rewrite !xellipk_fin by auto. rewrite !xellipe_fin by lra. rewrite (xdiv_fin Rr r) by lra. rewrite !xsqrt_fin by lra. xn.
  assert (B1 : 4 * PI * sqrt (r * Rr) <> 0) by (apply Rgt_not_eq, Rmult_lt_0_compat; lra).
  rewrite !xdiv_fin by lra. xn. f_equal; f_equal.
  - rewrite !Cr_val by auto. unfold Rdiv. ring.
  - unfold CzP. rewrite K1, L1. pose proof (SA (z - z1)). pose proof (SA (z - z2)). destruct (Req_EM_T r Rr); [contradiction|]. destruct (Rlt_dec r Rr); field; repeat split; lra.
Qed.
Lemma vc_raw_X g Rr r z p : 0 < r -> 0 < Rr -> r <> Rr ->
  vc_raw_pt (N := XN) (Fin g) (Fin Rr) (Fin r, Fin z) (Fin p) = (Fin (Cr g Rr r z), Fin (CzP g Rr r z p)).
Proof.
  intros hr hR NE. pose proof PI_RGT_0 as HP.
  assert (O : 0 < (r - Rr) * (r - Rr) + z * z) by (pose proof (Rsq_lt (r - Rr) ltac:(lra)); pose proof (Rsq_pos z); lra).
  pose proof (a2_pos r Rr z O ltac:(lra) hR) as HA. assert (SA : 0 < sqrt (a2 r Rr z)) by (apply sqrt_lt_R0; auto).
  destruct (k_val r Rr z hr hR O) as (K1 & K2 & K3 & K4). cbv zeta in *.
  pose proof (mm_lt r Rr z O ltac:(lra) hR) as M1. pose proof (mm_ge r Rr z O ltac:(lra) hR) as M0.
  assert (Q : 0 < Rr / r) by (apply Rdiv_lt_0_compat; auto). assert (P : 0 < r * Rr) by (apply Rmult_lt_0_compat; auto).
  unfold vc_raw_pt. xn. replace ((Rr + r) * (Rr + r) + z * z) with (a2 r Rr z) by (unfold a2; ring).
  rewrite (xdiv_fin _ (a2 r Rr z)) by lra. fold (mm r Rr z). rewrite xellipk_fin by auto. rewrite xellipe_fin by lra. rewrite (xdiv_fin Rr r) by lra. rewrite !xsqrt_fin by lra. xn.
  assert (B1 : 2 * PI * sqrt (r * Rr) <> 0) by (apply Rgt_not_eq, Rmult_lt_0_compat; lra).
  assert (B2 : 0 < Rabs (Rr - r)) by (apply Rabs_pos_lt; lra).
  rewrite !xdiv_fin by lra. xn. f_equal; f_equal.
  - rewrite Cr_val by auto. cbv zeta. ring.
  - unfold CzP. rewrite K1. destruct (Req_EM_T r Rr); [contradiction|]. destruct (Rlt_dec r Rr).
    + rewrite Rabs_right by lra. field. repeat split; lra.
    + rewrite Rabs_left by lra. field. repeat split; lra.
Qed.
Definition up (h : R) (p : R3) : R3 := (px p, py p, pz p - h).
Lemma rz_X pts : map (fun x : X * X * X => (vc_r (N := XN) x, snd x)) (map xv pts) = map F2 (map rzp pts).
Proof. rewrite !map_map. apply map_ext. intros p. change (xv p) with (F3 p). rewrite vc_r_X. reflexivity. Qed.
Theorem C55_finite_is_difference : forall g Rr z1 z2 (pts : list R3), 0 < Rr -> Forall (plain Rr) pts ->
  exists v w : list (R * R), len v = len pts /\ len w = len pts /\
    vcP (Fin g) (Fin Rr) (Fin 0) (map xv (map (up z1) pts)) = map F2 v /\ 
    vcP (Fin g) (Fin Rr) (Fin 0) (map xv (map (up z2) pts)) = map F2 w /\
    cylinder_tang_polar (N := XN) (Fin g) (Fin Rr) (Fin z1) (Fin z2) (map xv pts) = map F2 (map2 sub2 v w).
Proof.
  intros g Rr z1 z2 pts hR HF. unfold vc_tang_polar, cylinder_tang_polar.
  rewrite (vc_polar_fun _ _ g Rr (map (up z1) pts) third_code hR), (vc_polar_fun _ _ g Rr (map (up z2) pts) third_code hR).
  assert (EU : forall h, map rzp (map (up h) pts) = map (fun q : R * R => (fst q, snd q - h)) (map rzp pts)) by (intros; rewrite !map_map; reflexivity).
  rewrite !EU. assert (PL : Forall (fun q : R * R => forall h, regb Rr (fst q, h) = true /\ fst q <> Rr /\ 0 < fst q) (map rzp pts)).
  { rewrite Forall_map. eapply Forall_impl; [|exact HF]. intros p [H1 H2] h. apply plain_reg; auto. }
  assert (REG : forall h, Forall (fun q => regb Rr q = true) (map (fun q : R * R => (fst q, snd q - h)) (map rzp pts))).
  { intros h. rewrite Forall_map. eapply Forall_impl; [|exact PL]. intros q Hq. apply Hq. }
  rewrite !(vcps_all _ _ Rr _ third_code hR (REG _)).
  assert (TH : forall h, Forall2 (fun q v => exists w, v = Fin w) (map rzp pts) (ellipticPiCarlson (N := XN) (map F2 (map (nmR Rr) (map (fun q : R * R => (fst q, snd q - h)) (map rzp pts)))))).
  { intros h. pose proof (args_lt Rr (map (fun q : R * R => (fst q, snd q - h)) (map rzp pts)) hR) as AL. rewrite filter_all in AL by apply REG.
    pose proof (third_code _ AL) as H. rewrite map_map in H at 1. apply Forall2_map_l in H. eapply Forall2_in; [|exact H]. intros q v Hq Hv. cbn beta in Hv. rewrite Forall_forall in PL.
    destruct (PL q Hq 0) as (_ & NE & P0). unfold nmR in Hv. cbn [fst snd] in Hv. destruct (Hv (nn_lt (fst q) Rr ltac:(lra) hR NE)) as (w & -> & _). eauto. }
  assert (AG : forall h, map (cyl_fin_nm (N := XN) (Fin Rr) (Fin h)) (map F2 (map rzp pts)) = map F2 (map (nmR Rr) (map (fun q : R * R => (fst q, snd q - h)) (map rzp pts)))).
  { intros h. set (rz := map rzp pts) in *. rewrite !map_map. apply map_ext_in. intros q Hq. rewrite Forall_forall in PL. destruct (PL q Hq 0) as (_ & NE & P0). destruct q as [r z]. cbn [fst snd] in *.
    unfold cyl_fin_nm, nmR, F2. cbn [fst snd]. xn. pose proof (a2_pos r Rr (z - h) ltac:(pose proof (Rsq_lt (r - Rr) ltac:(lra)); pose proof (Rsq_pos (z - h)); lra) ltac:(lra) hR) as HA.
    replace ((Rr + r) * (Rr + r) + (z - h) * (z - h)) with (a2 r Rr (z - h)) by (unfold a2; ring). rewrite !xdiv_fin by nra. unfold nn, mm. f_equal. f_equal. f_equal. ring. }
  unfold cylinder_tang_polar_gen. nT. pose proof (rz_X pts) as EZ. nT. rewrite EZ. pose proof (AG z1) as AG1. pose proof (AG z2) as AG2. nT. rewrite AG1, AG2. clear AG AG1 AG2 EZ.
  pose proof (TH z1) as T1. pose proof (TH z2) as T2. revert T1 T2. generalize (ellipticPiCarlson (N := XN) (map F2 (map (nmR Rr) (map (fun q : R * R => (fst q, snd q - z1)) (map rzp pts))))).
  generalize (ellipticPiCarlson (N := XN) (map F2 (map (nmR Rr) (map (fun q : R * R => (fst q, snd q - z2)) (map rzp pts))))). nT. intros P2 P1 T1 T2.
  rewrite !map2_map_l. cbn [fst snd].
  exists (map2 (fun q w => vcR g Rr (fst q) (snd q - z1) w) (map rzp pts) (map toR P1)), (map2 (fun q w => vcR g Rr (fst q) (snd q - z2) w) (map rzp pts) (map toR P2)).
  assert (LL : len (map rzp pts) = len pts) by apply map_length.
  pose proof (F2_len _ _ _ T1) as L1. pose proof (F2_len _ _ _ T2) as L2. rewrite !map2_length, !map_length in *. split; [lia|]. split; [lia|]. split; [rewrite map2_map_l; reflexivity|]. split; [rewrite map2_map_l; reflexivity|].
  clear LL L1 L2 TH REG EU HF. revert P1 P2 T1 T2 PL. generalize (map rzp pts). clear pts.
  induction l as [|[r z] l IH]; intros P1 P2 T1 T2 PL; inversion T1 as [|a b l1 l2 [w1 W1] X1]; subst; inversion T2 as [|a b l3 l4 [w2 W2] X2]; subst; [reflexivity|].
  inversion PL as [|a b Pa Pb]; subst. cbn [map map2]. f_equal; [|apply IH; auto].
  destruct (Pa (z - z1)) as (R1 & NE & P0). destruct (Pa (z - z2)) as (R2 & _ & _). cbn [fst snd] in *.
  change (F2 (r, z)) with (Fin r, Fin z). rewrite cyl_fin_X by auto. 
  assert (V : forall h w, regb Rr (r, z - h) = true -> vcR g Rr r (z - h) w = (Cr g Rr r (z - h), CzP g Rr r (z - h) w)).
  { intros h w Hq. unfold vcR. unfold regb in Hq. cbn [fst snd] in Hq. apply negb_true_iff, orb_false_iff in Hq. destruct Hq as [-> ->]. reflexivity. }
  rewrite !V by auto. reflexivity.
Qed.
Theorem C56_raw_agrees : forall g Rr (pts : list R3), 0 < Rr -> Forall (plain Rr) pts ->
  exists v : list (R * R), len v = len pts /\ vcP (Fin g) (Fin Rr) (Fin 0) (map xv pts) = map F2 v /\
    cylinder_tang_semi_inf_u_raw (N := XN) (Fin g) (Fin Rr) (map xv pts) = map F2 v.
Proof.
  intros g Rr pts hR HF. unfold vc_tang_polar, cylinder_tang_semi_inf_u_raw. rewrite (vc_polar_fun _ _ g Rr pts third_code hR).
  assert (PL : Forall (fun q : R * R => regb Rr q = true /\ fst q <> Rr /\ 0 < fst q) (map rzp pts)).
  { rewrite Forall_map. eapply Forall_impl; [|exact HF]. intros p [H1 H2]. apply plain_reg; auto. }
  assert (REG : Forall (fun q => regb Rr q = true) (map rzp pts)) by (eapply Forall_impl; [|exact PL]; intros q Hq; apply Hq).
  rewrite (vcps_all _ _ Rr _ third_code hR REG).
  assert (TH : Forall2 (fun q v => exists w, v = Fin w) (map rzp pts) (ellipticPiCarlson (N := XN) (map F2 (map (nmR Rr) (map rzp pts))))).
  { pose proof (args_lt Rr (map rzp pts) hR) as AL. rewrite filter_all in AL by apply REG.
    pose proof (third_code _ AL) as H. apply Forall2_map_l in H. eapply Forall2_in; [|exact H]. intros q v Hq Hv. cbn beta in Hv. rewrite Forall_forall in PL.
    destruct (PL q Hq) as (_ & NE & P0). unfold nmR in Hv. cbn [fst snd] in Hv. destruct (Hv (nn_lt (fst q) Rr ltac:(lra) hR NE)) as (w & -> & _). eauto. }
  assert (AG : map (vc_raw_nm (N := XN) (Fin Rr)) (map F2 (map rzp pts)) = map F2 (map (nmR Rr) (map rzp pts))).
  { set (rz := map rzp pts) in *. rewrite !map_map. apply map_ext_in. intros q Hq. rewrite Forall_forall in PL. destruct (PL q Hq) as (_ & NE & P0). destruct q as [r z]. cbn [fst snd] in *.
    unfold vc_raw_nm, nmR, F2. cbn [fst snd]. xn. pose proof (a2_pos r Rr z ltac:(pose proof (Rsq_lt (r - Rr) ltac:(lra)); pose proof (Rsq_pos z); lra) ltac:(lra) hR) as HA.
    replace ((Rr + r) * (Rr + r) + z * z) with (a2 r Rr z) by (unfold a2; ring). rewrite !xdiv_fin by nra. unfold nn, mm. f_equal. f_equal. f_equal. ring. }
  unfold cylinder_tang_semi_inf_u_raw_gen. nT. pose proof (rz_X pts) as EZ. nT. rewrite EZ. nT. rewrite AG. clear AG EZ.
  revert TH. generalize (ellipticPiCarlson (N := XN) (map F2 (map (nmR Rr) (map rzp pts)))). nT. intros P1 T1.
  exists (map2 (fun q w => vcR g Rr (fst q) (snd q) w) (map rzp pts) (map toR P1)).
  pose proof (F2_len _ _ _ T1) as L1. rewrite !map2_length, !map_length in *. split; [lia|]. split; [reflexivity|].
  clear L1 REG HF. revert P1 T1 PL. generalize (map rzp pts). clear pts.
  induction l as [|[r z] l IH]; intros P1 T1 PL; inversion T1 as [|a b l1 l2 [w1 W1] X1]; subst; [reflexivity|].
  inversion PL as [|a b Pa Pb]; subst. cbn [map map2]. f_equal; [|apply IH; auto].
  destruct Pa as (R1 & NE & P0). cbn [fst snd] in *. change (F2 (r, z)) with (Fin r, Fin z). rewrite vc_raw_X by auto. 
  unfold vcR. unfold regb in R1. cbn [fst snd] in R1. apply negb_true_iff, orb_false_iff in R1. destruct R1 as [-> ->]. reflexivity.
Qed.
Example C55_case : Forall (plain 1) [(1/2, 0, 3); (0, -2, -1)].
Proof.
  assert (E1 : rho (1/2, 0, 3) = 1/2) by (unfold rho, px, py; cbn [fst snd]; replace (1/2 * (1/2) + 0 * 0) with (1/2 * (1/2)) by ring; apply sqrt_square; lra).
  assert (E2 : rho (0, -2, -1) = 2) by (unfold rho, px, py; cbn [fst snd]; replace (0 * 0 + -2 * -2) with (2 * 2) by ring; apply sqrt_square; lra).
  repeat constructor; rewrite ?E1, ?E2; try lra; [rewrite Rabs_left by lra|rewrite Rabs_right by lra]; lra.
Qed.
