(** * Properties of VortexCylinder.py: C51-C59 *)
From Coquelicot Require Import Coquelicot.
From Coq Require Import ZArith List Bool Arith Lia String Reals Lra Psatz.
From Verif Require Import Num NumR NumX M_Elliptic M_Line M_Cylinder M_Ring M_Doublet M_Skewed L_List L_X L_Angles L_Built Spec SpecBS L_Calc L_Ell L_Cyl L_Carlson P_Line P_Ring P_Doublet P_Skewed.
Import ListNotations.
Local Open Scope R_scope.

(** ** The exact field in closed form, for a third-kind integral [P] *)
Definition Cr (g Rr r z : R) : R := - (g * Rr / (4 * PI)) * JJ r Rr z.
Definition CzP (g Rr r z P : R) : R :=
  let A := sqrt (a2 r Rr z) in let K := Kell (mm r Rr z) in
  if Req_EM_T r Rr then g / 2 * (1 / 2 + z / (PI * A) * K)
  else g / 2 * ((if Rlt_dec r Rr then 1 else 0) + z / (PI * A) * (K + (Rr - r) / (Rr + r) * P)).
Definition Cz (g Rr r z : R) : R := CzP g Rr r z (Piell (nn r Rr) (mm r Rr z)).

Lemma off_sheet_straight r Rr psi z : 0 <= r -> 0 < Rr -> off_sheet Rr 0 (r * cos psi, r * sin psi, z) -> r <> Rr \/ z < 0.
Proof.
  intros hr hR OFF. destruct (Req_dec r Rr) as [E|E]; [|left; auto]. right. apply Rnot_le_lt. intros H.
  apply (OFF psi z H). rewrite E. apply tri; ring.
Qed.
Lemma straight_off_sheet r Rr psi z : 0 <= r -> 0 < Rr -> r <> Rr \/ z < 0 -> off_sheet Rr 0 (r * cos psi, r * sin psi, z).
Proof.
  intros hr hR H th s Hs E. injection E as E1 E2 E3. destruct H as [H|H]; [|lra]. apply H.
  assert (Q : r * r = Rr * Rr).
  { pose proof (sin2_cos2 th) as S1. pose proof (sin2_cos2 psi) as S2. unfold Rsqr in *.
    replace (r * r) with ((r * cos psi) * (r * cos psi) + (r * sin psi) * (r * sin psi)) by (transitivity (r * r * (sin psi * sin psi + cos psi * cos psi)); [ring|rewrite S2; ring]).
    rewrite E1, E2. transitivity (Rr * Rr * (sin th * sin th + cos th * cos th)); [ring|rewrite S1; ring]. }
  nra.
Qed.
Lemma straight_row g Rr r psi z th : 0 <= r -> 0 < Rr -> r <> Rr \/ z < 0 ->
  let d := dd r Rr z (th - psi) in let k := g * Rr / (4 * PI) in
  0 < d /\ 0 < sqrt d - z /\
  row_u g Rr 0 th (r * cos psi, r * sin psi, z) =
    (- k * (cos th * / sqrt d), - k * (sin th * / sqrt d), k * ((Rr - r * cos (th - psi)) / (sqrt d * (sqrt d - z)))).
Proof.
  intros hr hR H d k. pose proof (straight_off_sheet r Rr psi z hr hR H) as OFF.
  destruct (row_closed g Rr 0 th r psi z ltac:(intros s Hs; apply OFF; auto)) as (P1 & P2 & P3). cbv zeta in *.
  replace (Rr * Rr + r * r + z * z - 2 * Rr * r * cos (th - psi)) with d in * by (unfold d, dd; ring).
  replace (1 + 0 * 0) with 1 in * by ring. rewrite sqrt_1, !Rmult_1_r in *.
  assert (SD : 0 < sqrt d) by (apply sqrt_lt_R0; auto).
  assert (DZ : 0 < sqrt d - z).
  { destruct (Rle_lt_dec z 0) as [Z|Z]; [lra|]. assert (z < sqrt d); [|lra].
    assert (z <= sqrt d).
    { rewrite <- (sqrt_square z) by lra. apply sqrt_le_1_alt. unfold d, dd. pose proof (COS_bound (th - psi)) as [_ C].
      assert (r * Rr * cos (th - psi) <= r * Rr * 1) by (apply Rmult_le_compat_l; [apply Rmult_le_pos; lra|auto]).
      pose proof (Rsq_pos (r - Rr)). lra. }
    lra. }
  split; [auto|]. split; [auto|]. rewrite P3. pose proof PI_RGT_0. unfold k. apply tri; field; repeat split; lra.
Qed.
Lemma rot_cont (f : R -> R) (psi : R) : (forall x, continuous f x) -> forall x, continuous (fun t => f (t - psi)) x.
Proof.
  intros H x. apply (continuous_comp (fun t => t - psi) f); auto. apply (ex_derive_continuous (fun t => t - psi)). auto_derive. auto.
Qed.
Lemma off_ring r Rr z : r <> Rr \/ z < 0 -> 0 < (r - Rr) * (r - Rr) + z * z.
Proof.
  intros [H|H].
  - pose proof (Rsq_lt (r - Rr) ltac:(lra)). pose proof (Rsq_pos z). lra.
  - pose proof (Rsq_lt z ltac:(lra)). pose proof (Rsq_pos (r - Rr)). lra.
Qed.
Lemma cos_per x : cos (x + 2 * PI) = cos x.
Proof. rewrite <- (cos_period x 1). f_equal. cbn [INR]. ring. Qed.
Lemma sin_per x : sin (x + 2 * PI) = sin x.
Proof. rewrite <- (sin_period x 1). f_equal. cbn [INR]. ring. Qed.
Lemma cos_cont x : continuous cos x.
Proof. apply (ex_derive_continuous cos); auto_derive; auto. Qed.
Lemma sin_cont x : continuous sin x.
Proof. apply (ex_derive_continuous sin); auto_derive; auto. Qed.

(** the axial integrand *)
Lemma axial_int g Rr r z : 0 <= r -> 0 < Rr -> r <> Rr \/ z < 0 ->
  is_RInt (fun t => g * Rr / (4 * PI) * ((Rr - r * cos t) / (sqrt (dd r Rr z t) * (sqrt (dd r Rr z t) - z)))) 0 (2 * PI) (Cz g Rr r z).
Proof.
  intros hr hR H. pose proof PI_RGT_0 as HP. pose proof (off_ring r Rr z H) as off.
  pose proof (int1 r Rr z off hr hR) as I1. pose proof (a2_pos r Rr z off hr hR) as A. assert (SA : 0 < sqrt (a2 r Rr z)) by (apply sqrt_lt_R0; auto).
  assert (I0 : is_RInt (fun _ : R => 1) 0 (2 * PI) (2 * PI)).
  { replace (is_RInt (fun _ : R => 1) 0 (2 * PI) (2 * PI)) with (is_RInt (fun _ : R => 1) 0 (2 * PI) (scal (2 * PI - 0) 1)); [apply (@is_RInt_const R_NormedModule)|].
    f_equal. rsc. ring. }
  assert (FACT : forall t, 0 < dd r Rr z t /\ 0 < sqrt (dd r Rr z t) /\ 0 < sqrt (dd r Rr z t) - z /\ sqrt (dd r Rr z t) * sqrt (dd r Rr z t) = dd r Rr z t).
  { intros t. destruct (straight_row g Rr r 0 z t hr hR H) as (P1 & P2 & _). cbv zeta in *. rewrite Rminus_0_r in *. repeat split; auto; [apply sqrt_lt_R0; auto|apply sqrt_sqrt; lra]. }
  unfold Cz, CzP. destruct (Req_EM_T r Rr) as [E|E].
  - assert (K := is_RInt_scal _ _ _ (g / (8 * PI)) _ (is_RInt_plus _ _ _ _ _ _ I0 (is_RInt_scal _ _ _ z _ I1))).
    match goal with |- is_RInt ?f ?a ?b ?v => replace v with (g / (8 * PI) * (2 * PI + z * II1 r Rr z)) by (unfold II1; field; split; lra) end.
    eapply is_RInt_ext; [|exact K]. intros t _. destruct (FACT t) as (D1 & D2 & D3 & D4).
    change (g / (8 * PI) * (1 + z * / sqrt (dd r Rr z t)) = g * Rr / (4 * PI) * ((Rr - r * cos t) / (sqrt (dd r Rr z t) * (sqrt (dd r Rr z t) - z)))).
    assert (EQ : Rr * (Rr - r * cos t) = (sqrt (dd r Rr z t) - z) * (sqrt (dd r Rr z t) + z) / 2).
    { replace ((sqrt (dd r Rr z t) - z) * (sqrt (dd r Rr z t) + z)) with (sqrt (dd r Rr z t) * sqrt (dd r Rr z t) - z * z) by ring. rewrite D4. unfold dd. rewrite E. field. }
    set (w := sqrt (dd r Rr z t)) in *.
    transitivity (g / (4 * PI) * (Rr * (Rr - r * cos t)) / (w * (w - z))); [rewrite EQ; field; repeat split; lra|field; repeat split; lra].
  - pose proof (int0 r Rr hr hR E) as J0. pose proof (int3 r Rr z hr hR E) as J3.
    assert (K := is_RInt_scal _ _ _ (g / (8 * PI)) _ (is_RInt_plus _ _ _ _ _ _ (is_RInt_plus _ _ _ _ _ _ I0 (is_RInt_scal _ _ _ z _ I1))
        (is_RInt_scal _ _ _ (Rr * Rr - r * r) _ (is_RInt_plus _ _ _ _ _ _ J0 (is_RInt_scal _ _ _ z _ J3))))).
    match goal with |- is_RInt ?f ?a ?b ?v => replace v with (g / (8 * PI) * ((2 * PI + z * II1 r Rr z) + (Rr * Rr - r * r) * (2 * PI / (Rabs (r - Rr) * (r + Rr)) + z * II3 r Rr z))) end.
    2: { unfold II1, II3. destruct (Rlt_dec r Rr) as [L|L].
         - rewrite Rabs_left by lra. field. repeat split; lra.
         - rewrite Rabs_right by lra. field. repeat split; lra. }
    eapply is_RInt_ext; [|exact K]. intros t _. destruct (FACT t) as (D1 & D2 & D3 & D4).
    change (g / (8 * PI) * ((1 + z * / sqrt (dd r Rr z t)) + (Rr * Rr - r * r) * (/ da r Rr t + z * / (da r Rr t * sqrt (dd r Rr z t)))) = g * Rr / (4 * PI) * ((Rr - r * cos t) / (sqrt (dd r Rr z t) * (sqrt (dd r Rr z t) - z)))).
    assert (DA : 0 < da r Rr t) by (apply dd_pos; auto; pose proof (Rsq_lt (r - Rr) ltac:(lra)); lra).
    assert (EA : da r Rr t = (sqrt (dd r Rr z t) - z) * (sqrt (dd r Rr z t) + z)).
    { replace ((sqrt (dd r Rr z t) - z) * (sqrt (dd r Rr z t) + z)) with (sqrt (dd r Rr z t) * sqrt (dd r Rr z t) - z * z) by ring. rewrite D4. unfold da, dd. ring. }
    assert (EQ : Rr * (Rr - r * cos t) = (da r Rr t + Rr * Rr - r * r) / 2) by (unfold da, dd; field).
    set (w := sqrt (dd r Rr z t)) in *. assert (WZ : w + z <> 0). { intros Z. rewrite Z, Rmult_0_r in EA. lra. }
    transitivity (g / (4 * PI) * (Rr * (Rr - r * cos t)) / (w * (w - z))); [rewrite EQ, EA; field; repeat split; lra|field; repeat split; lra].
Qed.
Theorem straight_sheet g Rr r psi z : 0 <= r -> 0 < Rr -> off_sheet Rr 0 (r * cos psi, r * sin psi, z) ->
  sheet_velocity g Rr 0 (r * cos psi, r * sin psi, z) (Cr g Rr r z * cos psi, Cr g Rr r z * sin psi, Cz g Rr r z).
Proof.
  intros hr hR OFF. pose proof (off_sheet_straight _ _ _ _ hr hR OFF) as H. pose proof (off_ring r Rr z H) as off. pose proof PI_RGT_0 as HP.
  exists (fun th => row_u g Rr 0 th (r * cos psi, r * sin psi, z)). split.
  { intros th. apply row_velocity. intros s Hs. apply OFF. auto. }
  assert (Cd : forall x, continuous (fun t => / sqrt (dd r Rr z t)) x) by (intros; apply dd_cont1; auto).
  assert (Pd := dd_per r Rr z).
  assert (A1 : is_RInt (fun t => cos (t - psi) * / sqrt (dd r Rr z (t - psi))) 0 (2 * PI) (JJ r Rr z)).
  { apply (rot_int psi (fun t => cos t * / sqrt (dd r Rr z t))); [| |apply JJ_int; auto].
    - intros x. apply (continuous_mult cos (fun t => / sqrt (dd r Rr z t))); auto. apply cos_cont.
    - intros x. rewrite cos_per, Pd. reflexivity. }
  assert (A2 : is_RInt (fun t => sin (t - psi) * / sqrt (dd r Rr z (t - psi))) 0 (2 * PI) 0).
  { apply (rot_int psi (fun t => sin t * / sqrt (dd r Rr z t))); [| |apply int_sin1; auto].
    - intros x. apply (continuous_mult sin (fun t => / sqrt (dd r Rr z t))); auto. apply sin_cont.
    - intros x. rewrite sin_per, Pd. reflexivity. }
  split; [|split]; unfold px, py, pz; cbn [fst snd].
  - assert (K := is_RInt_scal _ _ _ (- (g * Rr / (4 * PI))) _ (is_RInt_minus _ _ _ _ _ _ (is_RInt_scal _ _ _ (cos psi) _ A1) (is_RInt_scal _ _ _ (sin psi) _ A2))).
    match goal with |- is_RInt _ _ _ ?v => replace v with (- (g * Rr / (4 * PI)) * (cos psi * JJ r Rr z + - (sin psi * 0))) by (unfold Cr; ring) end.
    eapply is_RInt_ext; [|exact K]. intros t _. destruct (straight_row g Rr r psi z t hr hR H) as (P1 & P2 & P3). cbv zeta in *. rewrite P3. cbn [fst snd].
    change (- (g * Rr / (4 * PI)) * (cos psi * (cos (t - psi) * / sqrt (dd r Rr z (t - psi))) + - (sin psi * (sin (t - psi) * / sqrt (dd r Rr z (t - psi))))) = - (g * Rr / (4 * PI)) * (cos t * / sqrt (dd r Rr z (t - psi)))).
    replace (cos t) with (cos psi * cos (t - psi) - sin psi * sin (t - psi)); [ring|].
    replace t with (psi + (t - psi)) at 3 by ring. rewrite cos_plus. reflexivity.
  - assert (K := is_RInt_scal _ _ _ (- (g * Rr / (4 * PI))) _ (is_RInt_plus _ _ _ _ _ _ (is_RInt_scal _ _ _ (sin psi) _ A1) (is_RInt_scal _ _ _ (cos psi) _ A2))).
    match goal with |- is_RInt _ _ _ ?v => replace v with (- (g * Rr / (4 * PI)) * (sin psi * JJ r Rr z + cos psi * 0)) by (unfold Cr; ring) end.
    eapply is_RInt_ext; [|exact K]. intros t _. destruct (straight_row g Rr r psi z t hr hR H) as (P1 & P2 & P3). cbv zeta in *. rewrite P3. cbn [fst snd].
    change (- (g * Rr / (4 * PI)) * (sin psi * (cos (t - psi) * / sqrt (dd r Rr z (t - psi))) + cos psi * (sin (t - psi) * / sqrt (dd r Rr z (t - psi)))) = - (g * Rr / (4 * PI)) * (sin t * / sqrt (dd r Rr z (t - psi)))).
    replace (sin t) with (sin psi * cos (t - psi) + cos psi * sin (t - psi)); [ring|].
    replace t with (psi + (t - psi)) at 3 by ring. rewrite sin_plus. reflexivity.
  - eapply is_RInt_ext; [|apply (rot_int psi (fun t => g * Rr / (4 * PI) * ((Rr - r * cos t) / (sqrt (dd r Rr z t) * (sqrt (dd r Rr z t) - z)))) (Cz g Rr r z))].
    + intros t _. destruct (straight_row g Rr r psi z t hr hR H) as (P1 & P2 & P3). cbv zeta in *. rewrite P3. cbn [fst snd]. reflexivity.
    + intros x. destruct (straight_row g Rr r 0 z x hr hR H) as (P1 & P2 & _). cbv zeta in *. rewrite Rminus_0_r in *. assert (0 < sqrt (dd r Rr z x)) by (apply sqrt_lt_R0; auto).
      apply (ex_derive_continuous (fun t => g * Rr / (4 * PI) * ((Rr - r * cos t) / (sqrt (dd r Rr z t) * (sqrt (dd r Rr z t) - z))))). unfold dd in *.
      auto_derive. change (r * r + Rr * Rr + z * z + - (2 * r * Rr * cos x)) with (r * r + Rr * Rr + z * z - 2 * r * Rr * cos x). 
      repeat split; try lra. apply Rgt_not_eq, Rmult_lt_0_compat; lra.
    + intros x. rewrite cos_per, Pd. reflexivity.
    + apply axial_int; auto.
Qed.

(** ** what the code computes at a regular point *)
Lemma Reqb_refl x : Reqb x x = true.
Proof. apply Reqb_true. reflexivity. Qed.
Lemma k_val r Rr z : 0 < r -> 0 < Rr -> 0 < (r - Rr) * (r - Rr) + z * z ->
  let A := a2 r Rr z in sqrt (mm r Rr z) = 2 * sqrt (r * Rr) / sqrt A /\ 0 < sqrt (mm r Rr z) /\ sqrt (Rr / r) * sqrt (r * Rr) = Rr /\ 0 < sqrt (r * Rr).
Proof.
  intros hr hR off A. pose proof (a2_pos r Rr z off ltac:(lra) hR) as HA. fold A in HA. assert (SA : 0 < sqrt A) by (apply sqrt_lt_R0; auto).
  assert (P : 0 < r * Rr) by (apply Rmult_lt_0_compat; auto). assert (SP : 0 < sqrt (r * Rr)) by (apply sqrt_lt_R0; auto).
  assert (E1 : sqrt (mm r Rr z) = 2 * sqrt (r * Rr) / sqrt A).
  { unfold mm. fold A. rewrite sqrt_div_alt by auto. f_equal. replace (4 * r * Rr) with (2 * 2 * (r * Rr)) by ring. rewrite sqrt_mult_alt by lra. rewrite sqrt_square by lra. reflexivity. }
  split; [auto|]. split; [rewrite E1; apply Rdiv_lt_0_compat; lra|]. split; auto.
  assert (Q : 0 < Rr / r) by (apply Rdiv_lt_0_compat; auto). rewrite <- sqrt_mult by lra.
  replace (Rr / r * (r * Rr)) with (Rr * Rr) by (field; lra). apply sqrt_square. lra.
Qed.
Lemma vc_k2_X r Rr z : 0 < r -> 0 < Rr -> 0 < (r - Rr) * (r - Rr) + z * z -> vc_k2 (N := XN) (Fin 0) (Fin Rr) (Fin r) (Fin z) = Fin (mm r Rr z).
Proof.
  intros hr hR off. pose proof (a2_pos r Rr z off ltac:(lra) hR) as HA. unfold vc_k2. xn. rewrite Reqb_refl.
  replace ((Rr + r) * (Rr + r) + z * z) with (a2 r Rr z) by (unfold a2; ring). rewrite xdiv_fin by lra. reflexivity.
Qed.
Lemma clamp_X r Rr z : 0 < r -> 0 < Rr -> 0 < (r - Rr) * (r - Rr) + z * z -> clamp1 (N := XN) (Fin (mm r Rr z)) = Fin (mm r Rr z).
Proof.
  intros hr hR off. unfold clamp1. xn. pose proof (mm_lt r Rr z off ltac:(lra) hR). rewrite (proj2 (Rltb_false 1 (mm r Rr z))) by lra. reflexivity.
Qed.
Lemma vc_nm_X r Rr z : 0 < r -> 0 < Rr -> 0 < (r - Rr) * (r - Rr) + z * z -> 
  vc_nm (N := XN) (Fin 0) (Fin Rr) (Fin r, Fin z) = (Fin (nn r Rr), Fin (mm r Rr z)).
Proof.
  intros hr hR off. unfold vc_nm. cbn [fst snd]. rewrite vc_k2_X, clamp_X by auto. f_equal. unfold vc_k02. xn. rewrite Reqb_refl.
  rewrite xdiv_fin by nra. unfold nn. f_equal. f_equal. ring.
Qed.
Lemma Cr_val g Rr r z : 0 < r -> 0 < Rr -> 0 < (r - Rr) * (r - Rr) + z * z -> let m := mm r Rr z in
  Cr g Rr r z = - g / (2 * PI) * sqrt (Rr / r) * ((2 - m) / sqrt m * Kell m - 2 / sqrt m * Eell m).
Proof.
  intros hr hR off m. pose proof PI_RGT_0 as HP. destruct (k_val r Rr z hr hR off) as (E1 & E2 & E3 & E4). cbv zeta in *.
  pose proof (a2_pos r Rr z off ltac:(lra) hR) as HA. assert (SA : 0 < sqrt (a2 r Rr z)) by (apply sqrt_lt_R0; auto).
  assert (SS : sqrt (a2 r Rr z) * sqrt (a2 r Rr z) = a2 r Rr z) by (apply sqrt_sqrt; lra).
  assert (SP : sqrt (r * Rr) * sqrt (r * Rr) = r * Rr) by (apply sqrt_sqrt; apply Rmult_le_pos; lra).
  unfold Cr, JJ. destruct (Req_EM_T r 0); [lra|]. unfold II1. fold m.
  assert (HmA : r * r + Rr * Rr + z * z = a2 r Rr z * (1 - m / 2)) by (unfold m, mm; unfold a2 in *; field; lra).
  rewrite HmA. rewrite <- SS at 1.
  transitivity (- g / (4 * PI * r) * sqrt (a2 r Rr z) * ((2 - m) * Kell m - 2 * Eell m)); [field; repeat split; lra|].
  fold m in E1. rewrite E1. set (K := Kell m). set (E := Eell m). 
  assert (EQ : sqrt (Rr / r) = Rr / sqrt (r * Rr)) by (apply Rmult_eq_reg_r with (sqrt (r * Rr)); [rewrite E3; field; lra|lra]). rewrite EQ.
  assert (ER : Rr / sqrt (r * Rr) = sqrt (r * Rr) / r) by (apply Rmult_eq_reg_r with (sqrt (r * Rr) * r); [|apply Rgt_not_eq, Rmult_lt_0_compat; lra];
     transitivity (r * Rr); [field; lra|]; rewrite <- SP at 1; field; lra). rewrite ER.
  field. repeat split; lra.
Qed.
Lemma vc_reg_X g Rr r z PIv p : 0 < r -> 0 < Rr -> 0 < (r - Rr) * (r - Rr) + z * z -> (r <> Rr -> PIv = Fin p) ->
  vc_reg (N := XN) (Fin g) (Fin 0) (Fin Rr) (Fin r, Fin z) PIv = (Fin (Cr g Rr r z), Fin (CzP g Rr r z p)).
Proof.
  intros hr hR off HPI. pose proof PI_RGT_0 as HP. destruct (k_val r Rr z hr hR off) as (E1 & E2 & E3 & E4). cbv zeta in *.
  pose proof (a2_pos r Rr z off ltac:(lra) hR) as HA. assert (SA : 0 < sqrt (a2 r Rr z)) by (apply sqrt_lt_R0; auto).
  pose proof (mm_lt r Rr z off ltac:(lra) hR) as M1. pose proof (mm_ge r Rr z off ltac:(lra) hR) as M0.
  assert (Q : 0 < Rr / r) by (apply Rdiv_lt_0_compat; auto). assert (P : 0 < r * Rr) by (apply Rmult_lt_0_compat; auto).
  unfold vc_reg. rewrite vc_k2_X, clamp_X by auto.
  assert (T1 : vc_T1 (N := XN) (Fin 0) (Fin Rr) (Fin r) (Fin z) = Fin (if Req_EM_T r Rr then 1/2 else if Rlt_dec r Rr then 1 else 0)).
  { unfold vc_T1. xn. rewrite Reqb_refl. cbn [negb andb]. unfold Rltb, Reqb. destruct (Rlt_dec r Rr), (Req_EM_T r Rr); try lra; reflexivity. }
  assert (FP : vc_fixPI (N := XN) (Fin Rr) (Fin r) PIv = Fin (if Req_EM_T r Rr then 0 else p)).
  { unfold vc_fixPI. xn. unfold Reqb. destruct (Req_EM_T r Rr); [reflexivity|]. rewrite HPI by auto. reflexivity. }
  rewrite T1, FP. xn. rewrite xellipk_fin by auto. rewrite xellipe_fin by lra. unfold vc_fixK. xn.
  rewrite xsqrt_fin by lra. rewrite (xdiv_fin Rr r) by lra. rewrite !xsqrt_fin by lra. xn.
  assert (B1 : 2 * PI * sqrt (r * Rr) <> 0) by (apply Rgt_not_eq, Rmult_lt_0_compat; lra).
  rewrite !xdiv_fin by lra. xn. f_equal; f_equal.
  - symmetry. apply Cr_val; auto.
  - unfold CzP. rewrite E1. destruct (Req_EM_T r Rr) as [E|E].
    + field. repeat split; lra.
    + destruct (Rlt_dec r Rr); field; repeat split; lra.
Qed.
(** the axis value *)
Lemma axis_val g Rr z : 0 < Rr -> Cr g Rr 0 z = 0 /\ Cz g Rr 0 z = g / 2 * (1 + z / sqrt (z * z + Rr * Rr)) /\
  vc_axis_uz (N := XN) (Fin g) (Fin Rr) (Fin z) = Fin (g / 2 * (1 + z / sqrt (z * z + Rr * Rr))).
Proof.
  intros hR. pose proof PI_RGT_0 as HP. pose proof (Rsq_pos z). pose proof (Rsq_lt Rr ltac:(lra)).
  assert (S : 0 < sqrt (z * z + Rr * Rr)) by (apply sqrt_lt_R0; lra). split; [|split].
  - unfold Cr, JJ. destruct (Req_EM_T 0 0); [ring|lra].
  - unfold Cz, CzP. destruct (Req_EM_T 0 Rr); [lra|]. destruct (Rlt_dec 0 Rr); [|lra].
    assert (EA : a2 0 Rr z = z * z + Rr * Rr) by (unfold a2; ring). 
    assert (EM : mm 0 Rr z = 0) by (unfold mm; rewrite EA; field; lra).
    assert (EN : nn 0 Rr = 0) by (unfold nn; field; lra). rewrite EA, EM, EN, Kell_0.
    assert (EP : Piell 0 0 = PI / 2).
    { unfold Piell. apply RInt_val. apply (is_RInt_ext (fun _ => 1)).
      - intros t _. rewrite !Rmult_0_l, Rminus_0_r, sqrt_1. eqR. field.
      - replace (is_RInt (fun _ : R => 1) 0 (PI / 2) (PI / 2)) with (is_RInt (fun _ : R => 1) 0 (PI / 2) (scal (PI / 2 - 0) 1)); [apply (@is_RInt_const R_NormedModule)|f_equal; rsc; ring]. }
    rewrite EP. field. repeat split; lra.
  - unfold vc_axis_uz. xn. rewrite xsqrt_fin by lra. rewrite !xdiv_fin by lra. reflexivity.
Qed.

(** ** Whole arrays.  [third PIb P]: on arguments n<1, m<1 the routine [PIb] returns finite values satisfying [P] *)
Definition third (PIb : list (X * X) -> list X) (P : R -> R -> R -> Prop) : Prop :=
  forall l : list (R * R), Forall (fun p => snd p < 1) l ->
    Forall2 (fun p v => fst p < 1 -> exists q, v = Fin q /\ P (fst p) (snd p) q) l (PIb (map F2 l)).
Definition any3 (n m q : R) : Prop := True.
Definition exact3 (n m q : R) : Prop := q = Piell n m.
Lemma third_code : third (ellipticPiCarlson (N := XN)) any3.
Proof.
  intros l H. assert (H' : Forall (fun p : R * R => snd p <= 1) l) by (eapply Forall_impl; [|exact H]; cbn; intros; lra).
  eapply Forall2_impl; [|apply Pi_finite; exact H']. intros p v [A _] Hn. destruct (A Hn) as [q E]. exists q. split; auto. exact I.
Qed.
Definition rho (p : R3) : R := sqrt (px p * px p + py p * py p).
Definition rim_zone (Rr r z : R) : Prop := Rabs (r - Rr) / Rr < 1 / 100000000 /\ Rabs (z / Rr) < 1 / 100000000.
Definition axis_zone (Rr r : R) : Prop := r < 1 / 10000000 * Rr.
Definition vc_val (P : R -> R -> R -> Prop) (g Rr r z : R) (u : X * X) : Prop :=
  (rim_zone Rr r z -> u = (Fin 0, Fin (g / 4))) /\
  (~ rim_zone Rr r z -> axis_zone Rr r -> u = (Fin 0, Fin (g / 2 * (1 + z / sqrt (z * z + Rr * Rr))))) /\
  (~ rim_zone Rr r z -> ~ axis_zone Rr r -> 
     exists q, u = (Fin (Cr g Rr r z), Fin (CzP g Rr r z q)) /\ (r <> Rr -> P (nn r Rr) (mm r Rr z) q)).
Lemma Forall2_map_l {A A' B} (f : A' -> A) (P : A -> B -> Prop) l m : Forall2 P (map f l) m <-> Forall2 (fun a b => P (f a) b) l m.
Proof.
  revert m. induction l as [|a l IH]; intros m; split; intros H; inversion H; subst; constructor; auto; apply IH; auto.
Qed.
Lemma vc_isrim_X Rr r z : 0 < Rr -> vc_isrim (N := XN) (Fin Rr) (Fin r) (Fin z) = true <-> rim_zone Rr r z.
Proof.
  intros hR. unfold vc_isrim, rim_zone. xn. rewrite !xdiv_fin by lra. xn. rewrite andb_true_iff, !Rltb_true. reflexivity.
Qed.
Lemma vc_isaxis_X Rr r : vc_isaxis (N := XN) (Fin Rr) (Fin r) = true <-> axis_zone Rr r.
Proof. unfold vc_isaxis, axis_zone, EPS_AXIS. xn. rewrite Rltb_true. reflexivity. Qed.
Lemma not_rim_off Rr r z : 0 < Rr -> ~ rim_zone Rr r z -> 0 < (r - Rr) * (r - Rr) + z * z.
Proof.
  intros hR H. pose proof (Rsq_pos (r - Rr)). pose proof (Rsq_pos z). destruct (Req_dec r Rr) as [E|E]; [|pose proof (Rsq_lt (r - Rr) ltac:(lra)); lra].
  destruct (Req_dec z 0) as [E'|E']; [|pose proof (Rsq_lt z ltac:(lra)); lra].
  exfalso. apply H. subst r z. unfold rim_zone. rewrite Rminus_diag_eq by reflexivity. unfold Rdiv. rewrite !Rmult_0_l, Rabs_R0, Rmult_0_l. lra.
Qed.
Lemma vc_r_X p : vc_r (N := XN) (F3 p) = Fin (rho p).
Proof.
  destruct p as [[x y] z]. unfold vc_r, F3, rho, px, py. cbn [fst snd]. xn. pose proof (Rsq_pos x). pose proof (Rsq_pos y). rewrite xsqrt_fin by lra. reflexivity.
Qed.
Lemma rho_ge p : 0 <= rho p.
Proof. apply sqrt_pos. Qed.
Definition rzp (p : R3) : R * R := (rho p, pz p).
Theorem vc_polar_spec PIb P g Rr (pts : list R3) : third PIb P -> 0 < Rr ->
  Forall2 (fun p u => vc_val P g Rr (rho p) (pz p) u) pts (vc_tang_polar_gen (N := XN) PIb (Fin g) (Fin Rr) (Fin 0) (map F3 pts)).
Proof.
  intros HP hR. unfold vc_tang_polar_gen. nT.
  assert (E : map (fun x : X * X * X => (vc_r (N := XN) x, snd x)) (map F3 pts) = map F2 (map rzp pts)).
  { rewrite !map_map. apply map_ext. intros p. rewrite vc_r_X. reflexivity. }
  nT. rewrite E. clear E. apply (proj1 (Forall2_map_l rzp (fun rz u => vc_val P g Rr (fst rz) (snd rz) u) pts _)).
  assert (NN : Forall (fun rz => 0 <= fst rz) (map rzp pts)) by (rewrite Forall_map; apply Forall_forall; intros; apply rho_ge).
  set (rz := map rzp pts) in *. clearbody rz. clear pts.
  rewrite (map_map F2 (vc_normal (N := XN) (Fin Rr))). rewrite gather_map_ext. rewrite (map_map F2 (vc_special (N := XN) (Fin g) (Fin Rr))).
  set (t := fun x : R * R => vc_normal (N := XN) (Fin Rr) (F2 x)).
  assert (T1 : forall q, t q = true -> ~ axis_zone Rr (fst q) /\ ~ rim_zone Rr (fst q) (snd q)).
  { intros [r z] Ht. unfold t, vc_normal, F2 in Ht. cbn [fst snd] in *. apply negb_true_iff in Ht. apply orb_false_iff in Ht. destruct Ht as [A B].
    split; [intros Z; apply vc_isaxis_X in Z; congruence|intros Z; apply vc_isrim_X in Z; auto; congruence]. }
  assert (T2 : forall q, t q = false -> axis_zone Rr (fst q) \/ rim_zone Rr (fst q) (snd q)).
  { intros [r z] Ht. unfold t, vc_normal, F2 in Ht. cbn [fst snd] in *. apply negb_false_iff in Ht. apply orb_true_iff in Ht.
    destruct Ht as [A|A]; [left; apply vc_isaxis_X; auto|right; apply vc_isrim_X; auto]. }
  assert (REG : forall q, In q (filter t rz) -> 0 < fst q /\ 0 < (fst q - Rr) * (fst q - Rr) + snd q * snd q).
  { intros q Hq. apply filter_In in Hq. destruct Hq as [Hi Ht]. destruct (T1 q Ht) as [A B]. unfold axis_zone in A. split; [lra|]. apply not_rim_off; auto. }
  apply (scatter_Forall2 t _ (fun q u => exists v, u = (Fin (Cr g Rr (fst q) (snd q)), Fin (CzP g Rr (fst q) (snd q) v)) /\ (fst q <> Rr -> P (nn (fst q) Rr) (mm (fst q) Rr (snd q)) v))).
  - set (sel := filter t rz) in *. rewrite map_map.
    assert (E : map (fun x : R * R => vc_nm (N := XN) (Fin 0) (Fin Rr) (F2 x)) sel = map F2 (map (fun q : R * R => (nn (fst q) Rr, mm (fst q) Rr (snd q))) sel)).
    { rewrite map_map. apply map_ext_in. intros [r z] Hq. destruct (REG _ Hq) as [A B]. unfold F2. cbn [fst snd] in *. rewrite vc_nm_X by auto. reflexivity. }
    nT. rewrite E. pose proof (HP (map (fun q : R * R => (nn (fst q) Rr, mm (fst q) Rr (snd q))) sel)) as H3.
    rewrite map2_map_l. eapply map2_Forall2 with (P := fun q v => 0 < fst q /\ 0 < (fst q - Rr) * (fst q - Rr) + snd q * snd q /\ (nn (fst q) Rr < 1 -> exists w, v = Fin w /\ P (nn (fst q) Rr) (mm (fst q) Rr (snd q)) w)).
    + assert (H4 : Forall (fun p : R * R => snd p < 1) (map (fun q : R * R => (nn (fst q) Rr, mm (fst q) Rr (snd q))) sel)).
      { rewrite Forall_map. apply Forall_forall. intros q Hq. destruct (REG _ Hq) as [A B]. cbn [snd]. apply mm_lt; auto. lra. }
      specialize (H3 H4). apply Forall2_map_l in H3. clear H4 E. revert H3 REG. generalize (PIb (map F2 (map (fun q : R * R => (nn (fst q) Rr, mm (fst q) Rr (snd q))) sel))).
      clear. induction sel as [|q sel IH]; intros vs H3 REG; inversion H3 as [|a b l1 l2 Q1 Q2]; subst; constructor.
      * destruct (REG q (or_introl eq_refl)) as [A B]. cbn [fst snd] in Q1. auto.
      * apply IH; auto. intros; apply REG; right; auto.
    + intros [r z] v (A & B & C). cbn [fst snd] in *. unfold F2. cbn [fst snd].
      destruct (Req_dec r Rr) as [Er|Er].
      * exists 0. split; [|intros; congruence]. apply vc_reg_X; auto. congruence.
      * destruct C as (w & Ew & Pw). { apply nn_lt; auto. lra. } exists w. split; auto. apply vc_reg_X; auto.
  - intros [r z] u Ht (v & Hu & HPv). cbn [fst snd] in *. destruct (T1 _ Ht) as [A B]. cbn [fst snd] in *. split; [|split].
    + intros Z; contradiction.
    + intros; contradiction.
    + intros _ _. exists v. auto.
  - intros [r z] Ht. destruct (T2 _ Ht) as [A|A]; cbn [fst snd] in *; unfold vc_special, F2; cbn [fst snd]; (split; [|split]).
    + intros Z. rewrite (proj2 (vc_isrim_X Rr r z hR) Z). xn. rewrite xdiv_fin by lra. reflexivity.
    + intros Z _. destruct (vc_isrim (N := XN) (Fin Rr) (Fin r) (Fin z)) eqn:Ez; [apply vc_isrim_X in Ez; auto; contradiction|].
      destruct (axis_val g Rr z hR) as (_ & _ & E3). rewrite E3. reflexivity.
    + intros; contradiction.
    + intros Z. rewrite (proj2 (vc_isrim_X Rr r z hR) Z). xn. rewrite xdiv_fin by lra. reflexivity.
    + intros Z; contradiction.
    + intros Z; contradiction.
Qed.
