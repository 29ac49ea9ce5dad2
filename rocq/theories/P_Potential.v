(** * C121: the kernels induce divergence-free and curl-free velocity fields *)
From Coquelicot Require Import Coquelicot.
From Coq Require Import ZArith List Bool Arith Lia String Reals Lra Psatz.
From Verif Require Import Num NumR NumX M_Elliptic M_Line M_Cylinder M_Ring M_Doublet M_Skewed L_List L_X L_Angles L_Built Spec SpecBS SpecField L_Calc L_Ell L_Cyl L_Carlson P_Line P_Ring P_Doublet P_Skewed P_Cylinder P_Cylinder2 P_Cylinder3 P_Blockage.
Import ListNotations.
Local Open Scope R_scope.
Local Notation len := List.length.

(** ** Fields equal near a point *)
Definition near_eq (u v : R3 -> R3) (p : R3) : Prop := exists e, 0 < e /\ forall q, Rabs (px q - px p) < e -> Rabs (py q - py p) < e -> Rabs (pz q - pz p) < e -> u q = v q.
Lemma near_ball (x e : R) : 0 < e -> locally x (fun y => Rabs (y - x) < e).
Proof. intros he. exists (mkposreal e he). intros y Hy. exact Hy. Qed.
Lemma abs_0 x e : 0 < e -> Rabs (x - x) < e.
Proof. intros. rewrite Rminus_eq_0, Rabs_R0. auto. Qed.
Lemma px_ext u v p f d : near_eq u v p -> partial_x (fun q => f (u q)) p d -> partial_x (fun q => f (v q)) p d.
Proof.
  intros (e & he & H) D. unfold partial_x in *. eapply is_derive_ext_loc; [|exact D].
  eapply filter_imp; [|apply (near_ball (px p) e he)]. intros y Hy. rewrite H; [reflexivity|exact Hy|apply abs_0; auto|apply abs_0; auto].
Qed.
Lemma py_ext u v p f d : near_eq u v p -> partial_y (fun q => f (u q)) p d -> partial_y (fun q => f (v q)) p d.
Proof.
  intros (e & he & H) D. unfold partial_y in *. eapply is_derive_ext_loc; [|exact D].
  eapply filter_imp; [|apply (near_ball (py p) e he)]. intros y Hy. rewrite H; [reflexivity|apply abs_0; auto|exact Hy|apply abs_0; auto].
Qed.
Lemma pz_ext u v p f d : near_eq u v p -> partial_z (fun q => f (u q)) p d -> partial_z (fun q => f (v q)) p d.
Proof.
  intros (e & he & H) D. unfold partial_z in *. eapply is_derive_ext_loc; [|exact D].
  eapply filter_imp; [|apply (near_ball (pz p) e he)]. intros y Hy. rewrite H; [reflexivity|apply abs_0; auto|apply abs_0; auto|exact Hy].
Qed.
Lemma div_ext u v p : near_eq u v p -> divergence_free u p -> divergence_free v p.
Proof.
  intros HE (a & b & c & A & B & C & S). exists a, b, c.
  split; [exact (px_ext u v p px a HE A)|]. split; [exact (py_ext u v p py b HE B)|]. split; [exact (pz_ext u v p pz c HE C)|exact S].
Qed.
Lemma curl_ext u v p : near_eq u v p -> curl_free u p -> curl_free v p.
Proof.
  intros HE (a & b & c & A1 & A2 & B1 & B2 & C1 & C2). exists a, b, c.
  split; [exact (py_ext u v p pz a HE A1)|]. split; [exact (pz_ext u v p py a HE A2)|]. split; [exact (pz_ext u v p px b HE B1)|]. split; [exact (px_ext u v p pz b HE B2)|].
  split; [exact (px_ext u v p py c HE C1)|exact (py_ext u v p px c HE C2)].
Qed.
Lemma potential_ext u v p : near_eq u v p -> potential_flow u p -> potential_flow v p.
Proof. intros HE [A B]. split; [apply (div_ext u v)|apply (curl_ext u v)]; auto. Qed.

(** ** Axisymmetric fields without swirl *)
Definition axisym (U V : R -> R -> R) (q : R3) : R3 := (U (rho q) (pz q) * (px q / rho q), U (rho q) (pz q) * (py q / rho q), V (rho q) (pz q)).
Lemma is_derive_multR (f g : R -> R) x a b : is_derive f x a -> is_derive g x b -> is_derive (fun t => f t * g t) x (a * g x + f x * b).
Proof. intros A B. exact (is_derive_mult f g x a b A B Rmult_comm). Qed.
Lemma is_derive_compR (f g : R -> R) x a b : is_derive f (g x) a -> is_derive g x b -> is_derive (fun t => f (g t)) x (b * a).
Proof. intros A B. exact (is_derive_comp f g x a b A B). Qed.
Lemma rad_deriv x y : 0 < x * x + y * y -> is_derive (fun t => sqrt (t * t + y * y)) x (x / sqrt (x * x + y * y)).
Proof. intros H. assert (0 < sqrt (x * x + y * y)) by (apply sqrt_lt_R0; auto). auto_derive; [auto|]. field. lra. Qed.
Lemma rad_deriv' x y : 0 < x * x + y * y -> is_derive (fun t => sqrt (x * x + t * t)) y (y / sqrt (x * x + y * y)).
Proof. intros H. assert (0 < sqrt (x * x + y * y)) by (apply sqrt_lt_R0; auto). auto_derive; [auto|]. field. lra. Qed.
Lemma axisym_potential (U V : R -> R -> R) p (Ur Uz Vr Vz : R) : 0 < rho p ->
  is_derive (fun r => U r (pz p)) (rho p) Ur -> is_derive (fun z => U (rho p) z) (pz p) Uz ->
  is_derive (fun r => V r (pz p)) (rho p) Vr -> is_derive (fun z => V (rho p) z) (pz p) Vz ->
  (Ur + U (rho p) (pz p) / rho p + Vz = 0 -> divergence_free (axisym U V) p) /\ (Uz = Vr -> curl_free (axisym U V) p).
Proof.
  destruct p as [[x y] z]. unfold rho, px, py, pz. cbn [fst snd]. set (r := sqrt (x * x + y * y)). intros hr DU1 DU2 DV1 DV2.
  assert (PP : 0 < x * x + y * y). { destruct (Rle_lt_dec (x * x + y * y) 0) as [N|N]; auto. exfalso. unfold r in hr. rewrite sqrt_neg_0 in hr by auto. lra. }
  assert (R2 : r * r = x * x + y * y) by (apply sqrt_sqrt; lra).
  pose proof (rad_deriv x y PP) as RX. pose proof (rad_deriv' x y PP) as RY. fold r in RX, RY.
  assert (UX : is_derive (fun t => U (sqrt (t * t + y * y)) z) x (x / r * Ur)) by (apply (is_derive_compR (fun r => U r z) (fun t => sqrt (t * t + y * y))); auto).
  assert (UY : is_derive (fun t => U (sqrt (x * x + t * t)) z) y (y / r * Ur)) by (apply (is_derive_compR (fun r => U r z) (fun t => sqrt (x * x + t * t))); auto).
  assert (VX : is_derive (fun t => V (sqrt (t * t + y * y)) z) x (x / r * Vr)) by (apply (is_derive_compR (fun r => V r z) (fun t => sqrt (t * t + y * y))); auto).
  assert (VY : is_derive (fun t => V (sqrt (x * x + t * t)) z) y (y / r * Vr)) by (apply (is_derive_compR (fun r => V r z) (fun t => sqrt (x * x + t * t))); auto).
  assert (NZ : sqrt (x * x + y * y) <> 0) by (fold r; lra).
  assert (QXX : is_derive (fun t => t / sqrt (t * t + y * y)) x (y * y / (r * r * r))).
  { auto_derive; [repeat split; auto; lra|]. fold r. replace (y * y) with (r * r - x * x) by lra. field. lra. }
  assert (QYY : is_derive (fun t => t / sqrt (x * x + t * t)) y (x * x / (r * r * r))).
  { auto_derive; [repeat split; auto; lra|]. fold r. replace (x * x) with (r * r - y * y) by lra. field. lra. }
  assert (QXY : is_derive (fun t => x / sqrt (x * x + t * t)) y (- (x * y / (r * r * r)))).
  { auto_derive; [repeat split; auto; lra|]. fold r. field. lra. }
  assert (QYX : is_derive (fun t => y / sqrt (t * t + y * y)) x (- (x * y / (r * r * r)))).
  { auto_derive; [repeat split; auto; lra|]. fold r. field. lra. }
  assert (UZ : forall k, is_derive (fun t => U r t * k) z (Uz * k)).
  { intros k. replace (Uz * k) with (Uz * k + U r z * 0) by ring. apply (is_derive_multR (fun t => U r t) (fun _ => k)); auto. auto_derive; auto. }
  split.
  - intros E. exists (x / r * Ur * (x / r) + U r z * (y * y / (r * r * r))), (y / r * Ur * (y / r) + U r z * (x * x / (r * r * r))), Vz.
    unfold partial_x, partial_y, partial_z, axisym, rho, px, py, pz. cbn [fst snd]. split; [|split; [|split]].
    + exact (is_derive_multR (fun t => U (sqrt (t * t + y * y)) z) (fun t => t / sqrt (t * t + y * y)) x _ _ UX QXX).
    + exact (is_derive_multR (fun t => U (sqrt (x * x + t * t)) z) (fun t => t / sqrt (x * x + t * t)) y _ _ UY QYY).
    + exact DV2.
    + replace (x / r * Ur * (x / r) + U r z * (y * y / (r * r * r)) + (y / r * Ur * (y / r) + U r z * (x * x / (r * r * r))) + Vz)
        with ((x * x + y * y) / (r * r) * Ur + (x * x + y * y) / (r * r * r) * U r z + Vz) by (field; lra). rewrite <- R2.
      replace (r * r / (r * r)) with 1 by (field; lra). replace (r * r / (r * r * r)) with (/ r) by (field; lra). unfold Rdiv in E. lra.
  - intros E. exists (y / r * Vr), (x / r * Vr), (x / r * Ur * (y / r) + U r z * - (x * y / (r * r * r))).
    unfold partial_x, partial_y, partial_z, axisym, rho, px, py, pz. cbn [fst snd]. split; [|split; [|split; [|split; [|split]]]].
    + exact VY.
    + replace (y / r * Vr) with (Uz * (y / r)) by (rewrite E; ring). apply UZ.
    + replace (x / r * Vr) with (Uz * (x / r)) by (rewrite E; ring). apply UZ.
    + exact VX.
    + exact (is_derive_multR (fun t => U (sqrt (t * t + y * y)) z) (fun t => y / sqrt (t * t + y * y)) x _ _ UX QYX).
    + replace (x / r * Ur * (y / r) + U r z * - (x * y / (r * r * r))) with (y / r * Ur * (x / r) + U r z * - (x * y / (r * r * r))) by (unfold Rdiv; ring).
      exact (is_derive_multR (fun t => U (sqrt (x * x + t * t)) z) (fun t => x / sqrt (x * x + t * t)) y _ _ UY QXY).
Qed.
(** ** Derivatives of the closed forms with respect to the radius *)
Ltac c2d :=
  lazymatch goal with
  | |- continuity_2d_pt (fun u v => u) _ _ => apply continuity_2d_pt_id1
  | |- continuity_2d_pt (fun u v => v) _ _ => apply continuity_2d_pt_id2
  | |- continuity_2d_pt (fun _ _ => ?c) _ _ => apply continuity_2d_pt_const
  | |- continuity_2d_pt (fun u v => (@?f u v) + (@?g u v)) _ _ => apply (continuity_2d_pt_plus f g); c2d
  | |- continuity_2d_pt (fun u v => (@?f u v) - (@?g u v)) _ _ => apply (continuity_2d_pt_minus f g); c2d
  | |- continuity_2d_pt (fun u v => (@?f u v) * (@?g u v)) _ _ => apply (continuity_2d_pt_mult f g); c2d
  | |- continuity_2d_pt (fun u v => - (@?f u v)) _ _ => apply (continuity_2d_pt_opp f); c2d
  | |- continuity_2d_pt (fun u v => / (@?f u v)) _ _ => apply (continuity_2d_pt_inv f); [c2d|]
  | |- continuity_2d_pt (fun u v => cos (@?f u v)) _ _ => apply (continuity_1d_2d_pt_comp cos f); [apply continuity_cos|c2d]
  | |- continuity_2d_pt (fun u v => sqrt (@?f u v)) _ _ => apply (continuity_1d_2d_pt_comp sqrt f); [apply continuity_pt_filterlim; apply continuous_sqrt|c2d]
  | |- _ => idtac
  end.
Lemma ring_open_r (Rr r z : R) : 0 < r -> 0 < (r - Rr) * (r - Rr) + z * z -> locally r (fun u => 0 < u /\ 0 < (u - Rr) * (u - Rr) + z * z).
Proof.
  intros hr H. assert (L : locally r (fun u => 0 < u)) by (apply (open_gt 0); auto). apply filter_and; [exact L|]. destruct (Req_dec r Rr) as [E|E].
  - assert (Z : 0 < z * z). { rewrite E in H. replace ((Rr - Rr) * (Rr - Rr)) with 0 in H by ring. lra. }
    apply filter_forall. intros u. pose proof (Rsq_pos (u - Rr)). lra.
  - assert (L' : locally r (fun u => u <> Rr)) by (apply open_neq; auto). eapply filter_imp; [|exact L']. intros u Hu. cbn beta. pose proof (Rsq_lt (u - Rr) ltac:(lra)). pose proof (Rsq_pos z). lra.
Qed.
Section Radial.
  Variables g Rr r z : R.
  Hypothesis hr : 0 < r.
  Hypothesis hR : 0 < Rr.
  Hypothesis off : 0 < (r - Rr) * (r - Rr) + z * z.
  Let k := g * Rr / (4 * PI).
  Let d t := dd r Rr z t.
  Let w t := sqrt (dd r Rr z t).
  Lemma dpos t : 0 < d t /\ 0 < w t /\ w t * w t = d t.
  Proof using hr hR off. assert (0 < d t) by (apply dd_pos; auto; lra). repeat split; auto; [apply sqrt_lt_R0; auto|apply sqrt_sqrt; unfold d in *; lra]. Qed.
  Lemma per_int (F F' : R -> R) : (forall t, is_derive F t (F' t)) -> (forall t, continuous F' t) -> F (2 * PI) = F 0 -> is_RInt F' 0 (2 * PI) 0.
  Proof using. intros H C E. replace 0 with (F (2 * PI) - F 0) at 2 by lra. apply (is_RInt_derive F F'); auto. Qed.
  (** div-free: d Cr / dr = - Cr/r - Wz *)
  Lemma Cr_deriv_r : is_derive (fun u => Cr g Rr u z) r (- (Cr g Rr r z / r) - Wz g Rr r z).
  Proof using hr hR off.
    pose proof PI_RGT_0 as HP.
    apply (param_deriv (fun u t => - k * (cos t * / sqrt (dd u Rr z t)))
            (fun u t => k * (cos t * ((u - Rr * cos t) * / (dd u Rr z t * sqrt (dd u Rr z t))))) _ (fun u => 0 < u /\ 0 < (u - Rr) * (u - Rr) + z * z) 0 (2 * PI)).
    - apply ring_open_r; auto.
    - intros u t [Hu Ho]. pose proof (dd_pos u Rr z Ho ltac:(lra) hR t) as P1.
      assert (SD : 0 < sqrt (dd u Rr z t)) by (apply sqrt_lt_R0; auto). assert (SS : sqrt (dd u Rr z t) * sqrt (dd u Rr z t) = dd u Rr z t) by (apply sqrt_sqrt; lra).
      unfold dd in *. unfold Rminus in P1, SD, SS. auto_derive.
      + repeat split; auto. lra.
      + unfold Rminus. set (w' := sqrt (u * u + Rr * Rr + z * z + - (2 * u * Rr * cos t))) in *. rewrite <- SS. field. lra.
    - intros t. destruct (dpos t) as (D1 & D2 & D3). unfold d, w, dd in D1, D2, D3. unfold dd. c2d. apply Rgt_not_eq, Rmult_lt_0_compat; auto.
    - intros u [Hu Ho]. pose proof (JJ_int u Rr z Ho ltac:(lra) hR) as J. assert (K := is_RInt_scal _ _ _ (- k) _ J). unfold Cr. exact K.
    - pose proof (JJ_int r Rr z off ltac:(lra) hR) as J. pose proof (int2 r Rr z off ltac:(lra) hR) as I2. pose proof (Jc_int r Rr z off ltac:(lra) hR) as J2.
      assert (T : is_RInt (fun t => cos t * / w t - r * Rr * (sin t * sin t) * / (d t * w t)) 0 (2 * PI) 0).
      { apply (per_int (fun t => sin t * / w t)).
        - intros t. destruct (dpos t) as (D1 & D2 & D3). unfold d, w in *. unfold dd in *. unfold Rminus in D1, D2, D3. auto_derive; [repeat split; auto; lra|].
          unfold Rminus. set (w' := sqrt _) in *. rewrite <- D3. field. lra.
        - intros t. destruct (dpos t) as (D1 & D2 & D3). apply (ex_derive_continuous (fun t => cos t * / w t - r * Rr * (sin t * sin t) * / (d t * w t))). unfold d, w, dd in *. unfold Rminus in D1, D2, D3. auto_derive.
          repeat split; auto; try lra. apply Rgt_not_eq, Rmult_lt_0_compat; auto.
        - rewrite sin_2PI, sin_0. ring. }
      assert (K := is_RInt_minus _ _ _ _ _ _ (is_RInt_minus _ _ _ _ _ _ (is_RInt_scal _ _ _ (k / r) _ J) (is_RInt_scal _ _ _ k _ (is_RInt_minus _ _ _ _ _ _ (is_RInt_scal _ _ _ Rr _ I2) (is_RInt_scal _ _ _ r _ J2)))) (is_RInt_scal _ _ _ (k / r) _ T)).
      match goal with |- is_RInt _ _ _ ?v => replace v with ((k / r * JJ r Rr z + - (k * (Rr * II2 r Rr z + - (r * Jc r Rr z)))) + - (k / r * 0)) end.
      2: { unfold Cr, Wz. fold k. field. lra. }
      eapply is_RInt_ext; [|exact K]. intros t _. destruct (dpos t) as (D1 & D2 & D3). unfold d, w in *.
      match goal with |- ?a = ?b => change ((k / r * (cos t * / sqrt (dd r Rr z t)) + - (k * (Rr * / (dd r Rr z t * sqrt (dd r Rr z t)) + - (r * (cos t * / (dd r Rr z t * sqrt (dd r Rr z t))))))) + - (k / r * (cos t * / sqrt (dd r Rr z t) - r * Rr * (sin t * sin t) * / (dd r Rr z t * sqrt (dd r Rr z t)))) = b) end.
      pose proof (sin2_cos2 t) as SC. unfold Rsqr in SC. replace (sin t * sin t) with (1 - cos t * cos t) by lra. field. repeat split; lra.
  Qed.
  (** ring: d Wz / dz and the three others *)
  Definition Zz : R := RInt (fun t => k * ((Rr - r * cos t) * (- (3 * z) * / (d t * d t * w t)))) 0 (2 * PI).
  Definition Zr : R := RInt (fun t => k * (cos t * (/ (d t * w t) - 3 * (z * z) * / (d t * d t * w t)))) 0 (2 * PI).
  Lemma d5c (a : R -> R) : (forall t, ex_derive a t) -> forall t, continuous (fun t => a t * / (d t * d t * w t)) t.
  Proof using hr hR off.
    intros HA t. destruct (dpos t) as (D1 & D2 & D3). specialize (HA t). apply (ex_derive_continuous (fun t => a t * / (d t * d t * w t))).
    assert (ex_derive (fun t => / (d t * d t * w t)) t); [|apply (ex_derive_mult a (fun t => / (d t * d t * w t))); auto].
    unfold d, w, dd in *. unfold Rminus in D1, D2, D3. auto_derive. repeat split; auto. apply Rgt_not_eq, Rmult_lt_0_compat; auto. apply Rmult_lt_0_compat; auto.
  Qed.
  Lemma Wz_deriv_z : is_derive (fun u => Wz g Rr r u) z Zz.
  Proof using hr hR off.
    pose proof PI_RGT_0 as HP. 
    apply (param_deriv (fun u t => k * ((Rr - r * cos t) * / (dd r Rr u t * sqrt (dd r Rr u t))))
            (fun u t => k * ((Rr - r * cos t) * (- (3 * u) * / (dd r Rr u t * dd r Rr u t * sqrt (dd r Rr u t))))) _ (fun u => 0 < (r - Rr) * (r - Rr) + u * u) 0 (2 * PI)).
    - apply ring_open; auto.
    - intros u t Hu. pose proof (d3_deriv r Rr u t (dd_pos r Rr u Hu ltac:(lra) hR t)) as K. apply (is_derive_scal _ _ (Rr - r * cos t)) in K. apply (is_derive_scal _ _ k) in K. exact K.
    - intros t. destruct (dpos t) as (D1 & D2 & D3). unfold d, w, dd in D1, D2, D3. unfold dd. c2d. apply Rgt_not_eq, Rmult_lt_0_compat; auto. apply Rmult_lt_0_compat; auto.
    - intros u Hu. pose proof (int2 r Rr u Hu ltac:(lra) hR) as I2. pose proof (Jc_int r Rr u Hu ltac:(lra) hR) as J2.
      assert (K := is_RInt_scal _ _ _ k _ (is_RInt_minus _ _ _ _ _ _ (is_RInt_scal _ _ _ Rr _ I2) (is_RInt_scal _ _ _ r _ J2))).
      unfold Wz. fold k. eapply is_RInt_ext; [|exact K]. intros t _.
      match goal with |- ?a = ?b => change (k * (Rr * / (dd r Rr u t * sqrt (dd r Rr u t)) + - (r * (cos t * / (dd r Rr u t * sqrt (dd r Rr u t))))) = b) end. ring.
    - apply cont_is_RInt. intros t. apply (continuous_ext (fun t => (k * ((Rr - r * cos t) * - (3 * z))) * / (d t * d t * w t))); [intros; unfold d, w; eqR; ring|].
      apply (d5c (fun t => k * ((Rr - r * cos t) * - (3 * z)))). intros; auto_derive; auto.
  Qed.
  Lemma Wr_deriv_z : is_derive (fun u => Wr g Rr r u) z Zr.
  Proof using hr hR off.
    pose proof PI_RGT_0 as HP. 
    apply (param_deriv (fun u t => k * (cos t * (u * / (dd r Rr u t * sqrt (dd r Rr u t)))))
            (fun u t => k * (cos t * (/ (dd r Rr u t * sqrt (dd r Rr u t)) - 3 * (u * u) * / (dd r Rr u t * dd r Rr u t * sqrt (dd r Rr u t))))) _ (fun u => 0 < (r - Rr) * (r - Rr) + u * u) 0 (2 * PI)).
    - apply ring_open; auto.
    - intros u t Hu. pose proof (d3_deriv r Rr u t (dd_pos r Rr u Hu ltac:(lra) hR t)) as K.
      assert (I : is_derive (fun u : R => u) u 1) by (auto_derive; auto).
      pose proof (is_derive_multR _ _ _ _ _ I K) as M. apply (is_derive_scal _ _ (cos t)) in M. apply (is_derive_scal _ _ k) in M.
      match type of M with is_derive _ _ ?v => match goal with |- is_derive _ _ ?v' => replace v' with v; [exact M|] end end. rsc. ring.
    - intros t. destruct (dpos t) as (D1 & D2 & D3). unfold d, w, dd in D1, D2, D3. unfold dd. c2d; apply Rgt_not_eq, Rmult_lt_0_compat; auto. apply Rmult_lt_0_compat; auto.
    - intros u Hu. pose proof (Jc_int r Rr u Hu ltac:(lra) hR) as J2. assert (K := is_RInt_scal _ _ _ (k * u) _ J2).
      unfold Wr. fold k. eapply is_RInt_ext; [|exact K]. intros t _.
      match goal with |- ?a = ?b => change ((k * u) * (cos t * / (dd r Rr u t * sqrt (dd r Rr u t))) = b) end. ring.
    - apply cont_is_RInt. intros t. destruct (dpos t) as (D1 & D2 & D3). apply (continuous_ext (fun t => (k * cos t * (d t - 3 * (z * z))) * / (d t * d t * w t))).
      { intros s. destruct (dpos s) as (E1 & E2 & E3). unfold d, w in *. eqR. field. lra. }
      apply (d5c (fun t => k * cos t * (d t - 3 * (z * z)))). intros; unfold d, dd. auto_derive; auto.
  Qed.
  Lemma T3 : is_RInt (fun t => cos t * / (d t * w t) - 3 * (r * Rr) * (sin t * sin t) * / (d t * d t * w t)) 0 (2 * PI) 0.
  Proof using hr hR off.
    apply (per_int (fun t => sin t * / (d t * w t))).
    - intros t. destruct (dpos t) as (D1 & D2 & D3). unfold d, w in *. unfold dd in *. unfold Rminus in D1, D2, D3. auto_derive; [repeat split; auto; apply Rgt_not_eq, Rmult_lt_0_compat; auto|].
      unfold Rminus. set (w' := sqrt _) in *. rewrite <- D3. field. lra.
    - intros t. apply (continuous_ext (fun t => (cos t * d t - 3 * (r * Rr) * (sin t * sin t)) * / (d t * d t * w t))).
      { intros s. destruct (dpos s) as (E1 & E2 & E3). eqR. field. lra. }
      apply (d5c (fun t => cos t * d t - 3 * (r * Rr) * (sin t * sin t))). intros; unfold d, dd. auto_derive; auto.
    - rewrite sin_2PI, sin_0. ring.
  Qed.
  Lemma Wr_deriv_r : is_derive (fun u => Wr g Rr u z) r (- (Wr g Rr r z / r) - Zz).
  Proof using hr hR off.
    pose proof PI_RGT_0 as HP.
    apply (param_deriv (fun u t => k * z * (cos t * / (dd u Rr z t * sqrt (dd u Rr z t))))
            (fun u t => k * z * (cos t * (- (3 * (u - Rr * cos t)) * / (dd u Rr z t * dd u Rr z t * sqrt (dd u Rr z t))))) _ (fun u => 0 < u /\ 0 < (u - Rr) * (u - Rr) + z * z) 0 (2 * PI)).
    - apply ring_open_r; auto.
    - intros u t [Hu Ho]. pose proof (dd_pos u Rr z Ho ltac:(lra) hR t) as P1.
      assert (SD : 0 < sqrt (dd u Rr z t)) by (apply sqrt_lt_R0; auto). assert (SS : sqrt (dd u Rr z t) * sqrt (dd u Rr z t) = dd u Rr z t) by (apply sqrt_sqrt; lra).
      unfold dd in *. unfold Rminus in P1, SD, SS. auto_derive.
      + repeat split; auto. apply Rgt_not_eq, Rmult_lt_0_compat; auto.
      + unfold Rminus. set (w' := sqrt (u * u + Rr * Rr + z * z + - (2 * u * Rr * cos t))) in *. rewrite <- SS. field. lra.
    - intros t. destruct (dpos t) as (D1 & D2 & D3). unfold d, w, dd in D1, D2, D3. unfold dd. c2d. apply Rgt_not_eq, Rmult_lt_0_compat; auto. apply Rmult_lt_0_compat; auto.
    - intros u [Hu Ho]. pose proof (Jc_int u Rr z Ho ltac:(lra) hR) as J. assert (K := is_RInt_scal _ _ _ (k * z) _ J). unfold Wr. exact K.
    - pose proof (Jc_int r Rr z off ltac:(lra) hR) as J2.
      assert (ZI : is_RInt (fun t => k * ((Rr - r * cos t) * (- (3 * z) * / (d t * d t * w t)))) 0 (2 * PI) Zz).
      { apply cont_is_RInt. intros t. apply (continuous_ext (fun t => (k * ((Rr - r * cos t) * - (3 * z))) * / (d t * d t * w t))); [intros; unfold d, w; eqR; ring|].
        apply (d5c (fun t => k * ((Rr - r * cos t) * - (3 * z)))). intros; auto_derive; auto. }
      assert (K := is_RInt_plus _ _ _ _ _ _ (is_RInt_minus _ _ _ _ _ _ (is_RInt_scal _ _ _ (- (k * z / r)) _ J2) ZI) (is_RInt_scal _ _ _ (k * z / r) _ T3)).
      match goal with |- is_RInt _ _ _ ?v => replace v with ((- (k * z / r) * Jc r Rr z + - Zz) + k * z / r * 0) end.
      2: { unfold Wr. fold k. field. lra. }
      eapply is_RInt_ext; [|exact K]. intros t _. destruct (dpos t) as (D1 & D2 & D3). unfold d, w in *.
      match goal with |- ?a = ?b => change ((- (k * z / r) * (cos t * / (dd r Rr z t * sqrt (dd r Rr z t))) + - (k * ((Rr - r * cos t) * (- (3 * z) * / (dd r Rr z t * dd r Rr z t * sqrt (dd r Rr z t)))))) + k * z / r * (cos t * / (dd r Rr z t * sqrt (dd r Rr z t)) - 3 * (r * Rr) * (sin t * sin t) * / (dd r Rr z t * dd r Rr z t * sqrt (dd r Rr z t))) = b) end.
      pose proof (sin2_cos2 t) as SC. unfold Rsqr in SC. replace (sin t * sin t) with (1 - cos t * cos t) by lra. field. repeat split; lra.
  Qed.
  Lemma Wz_deriv_r : is_derive (fun u => Wz g Rr u z) r Zr.
  Proof using hr hR off.
    pose proof PI_RGT_0 as HP.
    apply (param_deriv (fun u t => k * ((Rr - u * cos t) * / (dd u Rr z t * sqrt (dd u Rr z t))))
            (fun u t => k * (- cos t * / (dd u Rr z t * sqrt (dd u Rr z t)) + (Rr - u * cos t) * (- (3 * (u - Rr * cos t)) * / (dd u Rr z t * dd u Rr z t * sqrt (dd u Rr z t))))) _ (fun u => 0 < u /\ 0 < (u - Rr) * (u - Rr) + z * z) 0 (2 * PI)).
    - apply ring_open_r; auto.
    - intros u t [Hu Ho]. pose proof (dd_pos u Rr z Ho ltac:(lra) hR t) as P1.
      assert (SD : 0 < sqrt (dd u Rr z t)) by (apply sqrt_lt_R0; auto). assert (SS : sqrt (dd u Rr z t) * sqrt (dd u Rr z t) = dd u Rr z t) by (apply sqrt_sqrt; lra).
      unfold dd in *. unfold Rminus in P1, SD, SS. auto_derive.
      + repeat split; auto. apply Rgt_not_eq, Rmult_lt_0_compat; auto.
      + unfold Rminus. set (w' := sqrt (u * u + Rr * Rr + z * z + - (2 * u * Rr * cos t))) in *. rewrite <- SS. field. lra.
    - intros t. destruct (dpos t) as (D1 & D2 & D3). unfold d, w, dd in D1, D2, D3. unfold dd. c2d; apply Rgt_not_eq, Rmult_lt_0_compat; auto. apply Rmult_lt_0_compat; auto.
    - intros u [Hu Ho]. pose proof (int2 u Rr z Ho ltac:(lra) hR) as I2. pose proof (Jc_int u Rr z Ho ltac:(lra) hR) as J2.
      assert (K := is_RInt_scal _ _ _ k _ (is_RInt_minus _ _ _ _ _ _ (is_RInt_scal _ _ _ Rr _ I2) (is_RInt_scal _ _ _ u _ J2))).
      unfold Wz. fold k. eapply is_RInt_ext; [|exact K]. intros t _.
      match goal with |- ?a = ?b => change (k * (Rr * / (dd u Rr z t * sqrt (dd u Rr z t)) + - (u * (cos t * / (dd u Rr z t * sqrt (dd u Rr z t))))) = b) end. ring.
    - assert (ZI : is_RInt (fun t => k * (cos t * (/ (d t * w t) - 3 * (z * z) * / (d t * d t * w t)))) 0 (2 * PI) Zr).
      { apply cont_is_RInt. intros t. apply (continuous_ext (fun t => (k * cos t * (d t - 3 * (z * z))) * / (d t * d t * w t))).
        { intros s. destruct (dpos s) as (E1 & E2 & E3). unfold d, w in *. eqR. field. lra. }
        apply (d5c (fun t => k * cos t * (d t - 3 * (z * z)))). intros; unfold d, dd. auto_derive; auto. }
      assert (K := is_RInt_plus _ _ _ _ _ _ ZI (is_RInt_scal _ _ _ k _ T3)).
      match goal with |- is_RInt _ _ _ ?v => replace v with (Zr + k * 0) by ring end.
      eapply is_RInt_ext; [|exact K]. intros t _. destruct (dpos t) as (D1 & D2 & D3). unfold d, w in *.
      match goal with |- ?a = ?b => change (k * (cos t * (/ (dd r Rr z t * sqrt (dd r Rr z t)) - 3 * (z * z) * / (dd r Rr z t * dd r Rr z t * sqrt (dd r Rr z t)))) + k * (cos t * / (dd r Rr z t * sqrt (dd r Rr z t)) - 3 * (r * Rr) * (sin t * sin t) * / (dd r Rr z t * dd r Rr z t * sqrt (dd r Rr z t))) = b) end.
      pose proof (sin2_cos2 t) as SC. unfold Rsqr in SC. replace (sin t * sin t) with (1 - cos t * cos t) by lra.
      assert (ED : z * z = dd r Rr z t - r * r - Rr * Rr + 2 * r * Rr * cos t) by (unfold dd; ring). rewrite ED.
      set (x := dd r Rr z t) in *. set (y := sqrt x) in *. clearbody y. field. repeat split; lra.
  Qed.
End Radial.
Lemma side_open_r (Rr r z : R) : 0 < r -> r <> Rr \/ z < 0 -> locally r (fun u => 0 < u /\ (u <> Rr \/ z < 0)).
Proof.
  intros hr H. assert (L : locally r (fun u => 0 < u)) by (apply (open_gt 0); auto). apply filter_and; [exact L|]. destruct H as [H|H].
  - assert (L' : locally r (fun u => u <> Rr)) by (apply open_neq; auto). eapply filter_imp; [|exact L']. auto.
  - apply filter_forall. auto.
Qed.
Lemma side_facts Rr r z t : 0 < r -> 0 < Rr -> r <> Rr \/ z < 0 ->
  0 < dd r Rr z t /\ 0 < sqrt (dd r Rr z t) /\ 0 < sqrt (dd r Rr z t) - z /\ sqrt (dd r Rr z t) * sqrt (dd r Rr z t) = dd r Rr z t.
Proof.
  intros hr hR H. destruct (straight_row 1 Rr r 0 z t ltac:(lra) hR H) as (P1 & P2 & _). cbv zeta in *. rewrite Rminus_0_r in *. repeat split; auto; [apply sqrt_lt_R0; auto|apply sqrt_sqrt; lra].
Qed.
Lemma Cz_deriv_r g Rr r z : 0 < r -> 0 < Rr -> r <> Rr \/ z < 0 -> is_derive (fun u => Cz g Rr u z) r (Wr g Rr r z).
Proof.
  intros hr hR H. pose proof PI_RGT_0 as HP. set (k := g * Rr / (4 * PI)).
  apply (param_deriv (fun u t => k * ((Rr - u * cos t) / (sqrt (dd u Rr z t) * (sqrt (dd u Rr z t) - z))))
          (fun u t => k * (- cos t * / (sqrt (dd u Rr z t) * (sqrt (dd u Rr z t) - z)) +
             (Rr - u * cos t) * (- ((2 * sqrt (dd u Rr z t) - z) * (u - Rr * cos t)) * / (dd u Rr z t * sqrt (dd u Rr z t) * ((sqrt (dd u Rr z t) - z) * (sqrt (dd u Rr z t) - z))))))
          _ (fun u => 0 < u /\ (u <> Rr \/ z < 0)) 0 (2 * PI)).
  - apply side_open_r; auto.
  - intros u t [Hu Hs]. destruct (side_facts Rr u z t Hu hR Hs) as (D1 & D2 & D3 & D4). unfold dd in *. unfold Rminus in D1, D2, D3, D4. auto_derive.
    + repeat split; auto. apply Rgt_not_eq, Rmult_lt_0_compat; auto.
    + unfold Rminus. set (w := sqrt (u * u + Rr * Rr + z * z + - (2 * u * Rr * cos t))) in *. rewrite <- D4. field. repeat split; lra.
  - intros t. destruct (side_facts Rr r z t hr hR H) as (D1 & D2 & D3 & D4). unfold dd in *. c2d.
    + apply Rgt_not_eq, Rmult_lt_0_compat; auto.
    + apply Rgt_not_eq, Rmult_lt_0_compat; [apply Rmult_lt_0_compat; auto|apply Rmult_lt_0_compat; auto].
  - intros u [Hu Hs]. apply axial_int; auto. lra.
  - assert (off := off_ring r Rr z H). pose proof (Jc_int r Rr z off ltac:(lra) hR) as J2.
    set (w := fun t => sqrt (dd r Rr z t)).
    assert (T : is_RInt (fun t => cos t * / (w t * (w t - z)) - sin t * sin t * (r * Rr) * (2 * w t - z) * / (w t * w t * w t * ((w t - z) * (w t - z)))) 0 (2 * PI) 0).
    { apply (per_int (fun t => sin t * / (w t * (w t - z)))).
      - intros t. destruct (side_facts Rr r z t hr hR H) as (D1 & D2 & D3 & D4). unfold w, dd in *. unfold Rminus in D1, D2, D3, D4. auto_derive; [repeat split; auto; apply Rgt_not_eq, Rmult_lt_0_compat; auto|].
        unfold Rminus. set (w' := sqrt _) in *. field. repeat split; lra.
      - intros t. destruct (side_facts Rr r z t hr hR H) as (D1 & D2 & D3 & D4).
        match goal with |- continuous ?f _ => apply (ex_derive_continuous f) end. unfold w, dd in *. unfold Rminus in D1, D2, D3, D4. auto_derive. repeat split; auto.
        + apply Rgt_not_eq, Rmult_lt_0_compat; auto.
        + apply Rgt_not_eq, Rmult_lt_0_compat; [|apply Rmult_lt_0_compat; auto]. apply Rmult_lt_0_compat; auto. apply Rmult_lt_0_compat; auto.
      - rewrite sin_2PI, sin_0. ring. }
    assert (K := is_RInt_plus _ _ _ _ _ _ (is_RInt_scal _ _ _ (k * z) _ J2) (is_RInt_scal _ _ _ k _ T)).
    match goal with |- is_RInt _ _ _ ?v => replace v with (k * z * Jc r Rr z + k * 0) by (unfold Wr; fold k; ring) end.
    eapply is_RInt_ext; [|exact K]. intros t _. destruct (side_facts Rr r z t hr hR H) as (D1 & D2 & D3 & D4).
    match goal with |- ?a = ?b => change (k * z * (cos t * / (dd r Rr z t * w t)) + k * (cos t * / (w t * (w t - z)) - sin t * sin t * (r * Rr) * (2 * w t - z) * / (w t * w t * w t * ((w t - z) * (w t - z)))) = b) end.
    unfold w. pose proof (sin2_cos2 t) as SC. unfold Rsqr in SC. replace (sin t * sin t) with (1 - cos t * cos t) by lra.
    (* (R-rc)(r-Rc) - rR s^2 = -c (w^2-z^2) *)
    assert (ID : (Rr - r * cos t) * (r - Rr * cos t) = (1 - cos t * cos t) * (r * Rr) - cos t * (dd r Rr z t - z * z)) by (unfold dd; ring).
    set (x := dd r Rr z t) in *. set (y := sqrt x) in *. rewrite <- D4 in *. clearbody y. clear x D1 D4.
    transitivity (k * (- cos t * / (y * (y - z)) - (2 * y - z) * ((Rr - r * cos t) * (r - Rr * cos t)) * / (y * y * y * ((y - z) * (y - z))))).
    + rewrite ID. field. repeat split; lra.
    + field. repeat split; lra.
Qed.

(** ** C121 *)
Definition to3 (u : X * X * X) : R3 := (toR (fst (fst u)), toR (snd (fst u)), toR (snd u)).
Lemma to3_xv (u : R3) : to3 (xv u) = u.
Proof. destruct u as [[? ?] ?]. reflexivity. Qed.
Lemma Rmax_le_sum x y : 0 <= x -> 0 <= y -> sqrt (x * x + y * y) <= x + y.
Proof. intros hx hy. rewrite <- (sqrt_square (x + y)) by lra. apply sqrt_le_1_alt. nra. Qed.
Lemma rho_tri a b c d : sqrt ((a + c) * (a + c) + (b + d) * (b + d)) <= sqrt (a * a + b * b) + sqrt (c * c + d * d).
Proof.
  pose proof (sqrt_pos (a * a + b * b)) as S1. pose proof (sqrt_pos (c * c + d * d)) as S2.
  assert (P1 : 0 <= a * a + b * b) by nra. assert (P2 : 0 <= c * c + d * d) by nra.
  rewrite <- (sqrt_square (sqrt (a * a + b * b) + sqrt (c * c + d * d))) by lra. apply sqrt_le_1_alt.
  pose proof (sqrt_sqrt _ P1) as Q1. pose proof (sqrt_sqrt _ P2) as Q2.
  assert (CS : a * c + b * d <= sqrt (a * a + b * b) * sqrt (c * c + d * d)).
  { rewrite <- sqrt_mult by auto. destruct (Rle_lt_dec 0 (a * c + b * d)) as [L|L]; [|pose proof (sqrt_pos ((a * a + b * b) * (c * c + d * d))); lra].
    rewrite <- (sqrt_square (a * c + b * d)) by auto. apply sqrt_le_1_alt. pose proof (Rsq_pos (a * d - b * c)). nra. }
  nra.
Qed.
Lemma rho_near p q e : 0 < e -> Rabs (px q - px p) < e -> Rabs (py q - py p) < e -> Rabs (rho q - rho p) <= 2 * e.
Proof.
  intros he A B. unfold rho. destruct p as [[x y] z], q as [[x' y'] z']. unfold px, py in *. cbn [fst snd] in *.
  assert (S : forall a b, Rabs a < e -> Rabs b < e -> sqrt (a * a + b * b) <= 2 * e).
  { intros a b Ha Hb. apply Rabs_def2 in Ha. apply Rabs_def2 in Hb. rewrite <- (sqrt_square (2 * e)) by lra. apply sqrt_le_1_alt. nra. }
  apply Rabs_le. split.
  - pose proof (rho_tri x' y' (x - x') (y - y')) as T. replace (x' + (x - x')) with x in T by ring. replace (y' + (y - y')) with y in T by ring.
    pose proof (S (x - x') (y - y') ltac:(rewrite Rabs_minus_sym; auto) ltac:(rewrite Rabs_minus_sym; auto)). lra.
  - pose proof (rho_tri x y (x' - x) (y' - y)) as T. replace (x + (x' - x)) with x' in T by ring. replace (y + (y' - y)) with y' in T by ring.
    pose proof (S (x' - x) (y' - y) A B). lra.
Qed.
Lemma azim_dir p : 0 < rho p -> cos (azim p) = px p / rho p /\ sin (azim p) = py p / rho p.
Proof. intros H. destruct (azim_polar p) as [A B]. rewrite A at 1. rewrite B at 1. split; field; lra. Qed.
(** the ring, as computed by the code *)
Theorem C121_ring : forall G Rr p, 0 < Rr -> let r := sqrt (px p ^ 2 + py p ^ 2) in
  1 / 10000000 * Rr < r -> (1 / 10000000 * Rr < Rabs (r - Rr) \/ 1 / 10000000 < Rabs (pz p)) ->
  potential_flow (fun q => to3 (ring_u (N := XN) (Fin G) (Fin Rr) (Fin 0) (xv q))) p.
Proof.
  intros G Rr p hR r HA HO. assert (ER : rho p = r) by (unfold rho, r; f_equal; ring).
  apply (potential_ext (axisym (Wr G Rr) (Wz G Rr))).
  - set (m := Rmin ((r - 1 / 10000000 * Rr) / 4) (if Rlt_dec (1 / 10000000 * Rr) (Rabs (r - Rr)) then (Rabs (r - Rr) - 1 / 10000000 * Rr) / 4 else (Rabs (pz p) - 1 / 10000000) / 4)).
    assert (hm : 0 < m). { unfold m. apply Rmin_pos; [lra|]. destruct (Rlt_dec (1 / 10000000 * Rr) (Rabs (r - Rr))); [lra|]. destruct HO; lra. }
    exists m. split; [auto|]. intros q A B C. pose proof (rho_near p q m hm A B) as D. rewrite ER in D.
    assert (M1 : m <= (r - 1 / 10000000 * Rr) / 4) by apply Rmin_l.
    assert (NA : 1 / 10000000 * Rr < rho q) by (apply Rabs_le_between in D; lra).
    assert (NR : ~ near_ring Rr (rho q) (pz q)).
    { intros [N1 N2]. assert (M2 : m <= if Rlt_dec (1 / 10000000 * Rr) (Rabs (r - Rr)) then (Rabs (r - Rr) - 1 / 10000000 * Rr) / 4 else (Rabs (pz p) - 1 / 10000000) / 4) by apply Rmin_r.
      destruct (Rlt_dec (1 / 10000000 * Rr) (Rabs (r - Rr))) as [L|L].
      - pose proof (Rabs_triang (rho q - Rr) (r - rho q)) as T. replace (rho q - Rr + (r - rho q)) with (r - Rr) in T by ring. rewrite (Rabs_minus_sym r (rho q)) in T. lra.
      - pose proof (Rabs_triang (pz q) (pz p - pz q)) as T. replace (pz q + (pz p - pz q)) with (pz p) in T by ring. rewrite (Rabs_minus_sym (pz p) (pz q)) in T. lra. }
    assert (E : ring_u (N := XN) (Fin G) (Fin Rr) (Fin 0) (xv q) = xv (Wr G Rr (rho q) (pz q) * cos (azim q), Wr G Rr (rho q) (pz q) * sin (azim q), Wz G Rr (rho q) (pz q))).
    { unfold ring_u. assert (E' : ring_u_pol (N := XN) (Fin G) (Fin Rr) (Fin 0) (xv q) = F2 (Wr G Rr (rho q) (pz q), Wz G Rr (rho q) (pz q))).
      { destruct q as [[x y] z]. unfold rho, px, py, pz in *. cbn [fst snd] in *. change (xv (x, y, z)) with ((Fin x : XN), (Fin y : XN), (Fin z : XN)). rewrite pol_reg; auto. unfold near_axis. lra. }
      rewrite E', cart2_X. reflexivity. }
    rewrite E, to3_xv. destruct (azim_dir q) as [-> ->]; [|reflexivity]. assert (0 < 1 / 10000000 * Rr) by lra. lra.
  - assert (hr : 0 < r) by lra.
    assert (off : 0 < (r - Rr) * (r - Rr) + pz p * pz p).
    { pose proof (Rsq_pos (r - Rr)). pose proof (Rsq_pos (pz p)). destruct HO as [HO|HO].
      - assert (r - Rr <> 0). { intros Z. rewrite Z, Rabs_R0 in HO. lra. } pose proof (Rsq_lt _ H1). lra.
      - assert (pz p <> 0). { intros Z. rewrite Z, Rabs_R0 in HO. lra. } pose proof (Rsq_lt _ H1). lra. }
    destruct (axisym_potential (Wr G Rr) (Wz G Rr) p (- (Wr G Rr (rho p) (pz p) / rho p) - Zz G Rr (rho p) (pz p)) (Zr G Rr (rho p) (pz p)) (Zr G Rr (rho p) (pz p)) (Zz G Rr (rho p) (pz p))) as [P1 P2]; rewrite ?ER; auto.
    + apply Wr_deriv_r; auto.
    + apply Wr_deriv_z; auto.
    + apply Wz_deriv_r; auto.
    + apply Wz_deriv_z; auto.
    + split; [apply P1; rewrite ER; ring|apply P2; reflexivity].
Qed.
(** the cylinder, for an exact third-kind routine; the point is off the vortex sheet and outside the rim and axis zones *)
Theorem C121_cylinder : forall PIb g Rr p, third PIb exact3 -> 0 < Rr -> let r := sqrt (px p ^ 2 + py p ^ 2) in
  1 / 10000000 * Rr < r -> (1 / 100000000 * Rr < Rabs (r - Rr) \/ pz p < - (1 / 100000000 * Rr)) ->
  potential_flow (fun q => to3 (hd (Fin 0, Fin 0, Fin 0) (vc_tang_u_gen (N := XN) PIb (Fin g) (Fin Rr) (Fin 0) [xv q]))) p.
Proof.
  intros PIb g Rr p HT hR r HA HO. assert (ER : rho p = r) by (unfold rho, r; f_equal; ring).
  apply (potential_ext (axisym (Cr g Rr) (Cz g Rr))).
  - set (m := Rmin ((r - 1 / 10000000 * Rr) / 4) (if Rlt_dec (1 / 100000000 * Rr) (Rabs (r - Rr)) then (Rabs (r - Rr) - 1 / 100000000 * Rr) / 4 else (- pz p - 1 / 100000000 * Rr) / 4)).
    assert (hm : 0 < m). { unfold m. apply Rmin_pos; [lra|]. destruct (Rlt_dec (1 / 100000000 * Rr) (Rabs (r - Rr))); [lra|]. destruct HO; lra. }
    exists m. split; [auto|]. intros q A B C. pose proof (rho_near p q m hm A B) as D. rewrite ER in D.
    assert (M1 : m <= (r - 1 / 10000000 * Rr) / 4) by apply Rmin_l.
    assert (NA : 1 / 10000000 * Rr < rho q) by (apply Rabs_le_between in D; lra).
    assert (NR : ~ rim_zone Rr (rho q) (pz q)).
    { intros [N1 N2]. assert (M2 : m <= if Rlt_dec (1 / 100000000 * Rr) (Rabs (r - Rr)) then (Rabs (r - Rr) - 1 / 100000000 * Rr) / 4 else (- pz p - 1 / 100000000 * Rr) / 4) by apply Rmin_r.
      apply (Rmult_lt_compat_r Rr) in N1; auto. replace (Rabs (rho q - Rr) / Rr * Rr) with (Rabs (rho q - Rr)) in N1 by (field; lra).
      unfold Rdiv in N2 at 1. rewrite Rabs_mult, (Rabs_right (/ Rr)) in N2 by (apply Rle_ge; left; apply Rinv_0_lt_compat; auto).
      apply (Rmult_lt_compat_r Rr) in N2; auto. rewrite Rmult_assoc, Rinv_l, Rmult_1_r in N2 by lra.
      destruct (Rlt_dec (1 / 100000000 * Rr) (Rabs (r - Rr))) as [L|L].
      - pose proof (Rabs_triang (rho q - Rr) (r - rho q)) as T. replace (rho q - Rr + (r - rho q)) with (r - Rr) in T by ring. rewrite (Rabs_minus_sym r (rho q)) in T. lra.
      - destruct HO as [HO|HO]; [contradiction|]. apply Rabs_def2 in N2. apply Rabs_def2 in C. lra. }
    pose proof (vc_exact PIb g Rr [q] 0 q HT hR eq_refl NR) as E. cbv zeta in E. assert (RX : rax Rr (rho q) = rho q) by (unfold rax; destruct (axisb_spec Rr (rho q)) as [Z|Z]; [unfold axis_zone in Z; lra|reflexivity]).
    rewrite RX, <- Cz_scale in E. cbn [map] in E.
    destruct (vc_tang_u_gen (N := XN) PIb (Fin g) (Fin Rr) (Fin 0) [xv q]) as [|a l]; [discriminate|]. cbn [nth_error] in E. injection E as ->. cbn [hd]. rewrite to3_xv.
    destruct (azim_dir q) as [-> ->]; [lra|reflexivity].
  - assert (hr : 0 < r) by lra.
    assert (H : r <> Rr \/ pz p < 0). { destruct HO as [HO|HO]; [left; intros Z; rewrite Z, Rminus_eq_0, Rabs_R0 in HO; lra|right; lra]. }
    assert (off := off_ring r Rr (pz p) H).
    destruct (axisym_potential (Cr g Rr) (Cz g Rr) p (- (Cr g Rr (rho p) (pz p) / rho p) - Wz g Rr (rho p) (pz p)) (Wr g Rr (rho p) (pz p)) (Wr g Rr (rho p) (pz p)) (Wz g Rr (rho p) (pz p))) as [P1 P2]; rewrite ?ER; auto.
    + apply Cr_deriv_r; auto.
    + apply Cr_deriv; auto. lra.
    + apply Cz_deriv_r; auto.
    + apply Cz_deriv; auto. lra.
    + split; [apply P1; rewrite ER; ring|apply P2; reflexivity].
Qed.
