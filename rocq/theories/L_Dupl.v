(** * Carlson's duplication theorem *)
From Coquelicot Require Import Coquelicot.
From Coq Require Import Reals Lra Psatz.
From Verif Require Import NumR Spec SpecBS L_Calc L_Gen.
Local Open Scope R_scope.

Lemma is_RF_unique x y z a b : is_RF x y z a -> is_RF x y z b -> a = b.
Proof. apply gen_unique. Qed.
Lemma is_RC_unique x y a b : is_RC x y a -> is_RC x y b -> a = b.
Proof. apply gen_unique. Qed.
Lemma is_RJ_unique x y z r a b : is_RJ x y z r a -> is_RJ x y z r b -> a = b.
Proof. apply gen_unique. Qed.

Definition lamR (x y z : R) : R := sqrt x * sqrt y + sqrt x * sqrt z + sqrt y * sqrt z.

Section Dup.
  Variables x y z : R.
  Hypotheses (hx : 0 <= x) (hy : 0 <= y) (hz : 0 < z).
  Let X t := sqrt (t + x). Let Y t := sqrt (t + y). Let Z t := sqrt (t + z).
  Let X2 t : 0 < t -> X t * X t = t + x. Proof. intros; apply sqrt_sqrt; lra. Qed.
  Let Y2 t : 0 < t -> Y t * Y t = t + y. Proof. intros; apply sqrt_sqrt; lra. Qed.
  Let Z2 t : 0 < t -> Z t * Z t = t + z. Proof. intros; apply sqrt_sqrt; lra. Qed.
  Let Xp t : 0 < t -> 0 < X t. Proof. intros; apply sqrt_lt_R0; lra. Qed.
  Let Yp t : 0 < t -> 0 < Y t. Proof. intros; apply sqrt_lt_R0; lra. Qed.
  Let Zp t : 0 < t -> 0 < Z t. Proof. intros; apply sqrt_lt_R0; lra. Qed.
  (** the duplication substitution, shifted by lambda and scaled by 1/4 *)
  Let S t := X t * Y t + X t * Z t + Y t * Z t.
  Let lam := lamR x y z.
  Definition dup_phi (t : R) : R := (t + (sqrt (t + x) * sqrt (t + y) + sqrt (t + x) * sqrt (t + z) + sqrt (t + y) * sqrt (t + z)) - lamR x y z) / 4.
  Definition dup_dphi (t : R) : R :=
    (sqrt (t + x) + sqrt (t + y)) * (sqrt (t + y) + sqrt (t + z)) * (sqrt (t + x) + sqrt (t + z)) / (8 * (sqrt (t + x) * sqrt (t + y) * sqrt (t + z))).
  Lemma sqrt_cont a t : continuous (fun t => sqrt (t + a)) t.
  Proof. apply (continuous_comp (fun t => t + a) sqrt); [apply (continuous_plus (fun t : R => t) (fun _ => a)); [apply continuous_id|apply continuous_const]|apply continuous_sqrt]. Qed.
  Lemma dup_derive t : 0 < t -> is_derive dup_phi t (dup_dphi t).
  Proof.
    intros Ht. unfold dup_phi, dup_dphi. pose proof (Xp t Ht). pose proof (Yp t Ht). pose proof (Zp t Ht).
    auto_derive; [repeat split; lra|]. fold (X t) (Y t) (Z t). field. repeat split; lra.
  Qed.
  Lemma dup_dphi_cont t : 0 < t -> continuous dup_dphi t.
  Proof.
    intros Ht. pose proof (Xp t Ht). pose proof (Yp t Ht). pose proof (Zp t Ht). apply (ex_derive_continuous dup_dphi).
    unfold dup_dphi. auto_derive. repeat split; try lra. repeat apply Rmult_integral_contrapositive_currified; try lra;
      apply Rgt_not_eq; auto.
  Qed.
  Lemma dup_phi0 : dup_phi 0 = 0.
  Proof. unfold dup_phi, lamR. rewrite !Rplus_0_l. field. Qed.
  Lemma lam_le t : 0 < t -> lam <= S t.
  Proof.
    intros Ht. unfold lam, lamR, S, X, Y, Z.
    assert (sqrt x <= sqrt (t + x)) by (apply sqrt_le_1; lra). assert (sqrt y <= sqrt (t + y)) by (apply sqrt_le_1; lra). assert (sqrt z <= sqrt (t + z)) by (apply sqrt_le_1; lra).
    pose proof (sqrt_pos x). pose proof (sqrt_pos y). pose proof (sqrt_pos z).
    assert (sqrt x * sqrt y <= sqrt (t + x) * sqrt (t + y)) by (apply Rmult_le_compat; lra).
    assert (sqrt x * sqrt z <= sqrt (t + x) * sqrt (t + z)) by (apply Rmult_le_compat; lra).
    assert (sqrt y * sqrt z <= sqrt (t + y) * sqrt (t + z)) by (apply Rmult_le_compat; lra). lra.
  Qed.
  Lemma dup_phi_ge t : 0 < t -> t / 4 <= dup_phi t.
  Proof. intros Ht. pose proof (lam_le t Ht) as H. unfold lam, S, X, Y, Z in H. unfold dup_phi. lra. Qed.
  Lemma dup_lim0 : filterlim dup_phi 0+ 0+.
  Proof.
    apply lim_right_right; [|apply dup_phi0|intros t Ht; pose proof (dup_phi_ge t Ht); lra].
    apply (continuous_ext (fun t => / 4 * (t + (sqrt (t + x) * sqrt (t + y) + sqrt (t + x) * sqrt (t + z) + sqrt (t + y) * sqrt (t + z)) - lamR x y z))); [intros t; unfold dup_phi; match goal with |- ?a = ?b => change (@eq R a b) end; field|].
    apply (continuous_scal_r (/ 4) (fun t => t + (sqrt (t + x) * sqrt (t + y) + sqrt (t + x) * sqrt (t + z) + sqrt (t + y) * sqrt (t + z)) - lamR x y z)). apply (continuous_minus (fun t => t + (sqrt (t + x) * sqrt (t + y) + sqrt (t + x) * sqrt (t + z) + sqrt (t + y) * sqrt (t + z))) (fun _ => lamR x y z)); [|apply continuous_const].
    apply (continuous_plus (fun t : R => t) (fun t => sqrt (t + x) * sqrt (t + y) + sqrt (t + x) * sqrt (t + z) + sqrt (t + y) * sqrt (t + z))); [apply continuous_id|].
    apply (continuous_plus (fun t => sqrt (t + x) * sqrt (t + y) + sqrt (t + x) * sqrt (t + z)) (fun t => sqrt (t + y) * sqrt (t + z)));
      [apply (continuous_plus (fun t => sqrt (t + x) * sqrt (t + y)) (fun t => sqrt (t + x) * sqrt (t + z)))|];
      apply (continuous_mult (fun t => sqrt (t + _)) (fun t => sqrt (t + _))); apply sqrt_cont.
  Qed.
  Lemma dup_limoo : filterlim dup_phi oo oo.
  Proof. apply (lim_oo_oo _ (/ 4) 0); [lra|]. intros t Ht. pose proof (dup_phi_ge t Ht). lra. Qed.
  Let nx a := (a + lam) / 4.
  (** the shifted arguments along the substitution *)
  Lemma dup_x t : 0 < t -> dup_phi t + nx x = (X t + Y t) * (X t + Z t) / 4.
  Proof. intros Ht. pose proof (X2 t Ht). unfold dup_phi, nx, lam. fold (X t) (Y t) (Z t). lra. Qed.
  Lemma dup_y t : 0 < t -> dup_phi t + nx y = (X t + Y t) * (Y t + Z t) / 4.
  Proof. intros Ht. pose proof (Y2 t Ht). unfold dup_phi, nx, lam. fold (X t) (Y t) (Z t). lra. Qed.
  Lemma dup_z t : 0 < t -> dup_phi t + nx z = (X t + Z t) * (Y t + Z t) / 4.
  Proof. intros Ht. pose proof (Z2 t Ht). unfold dup_phi, nx, lam. fold (X t) (Y t) (Z t). lra. Qed.
  Lemma dup_r r t : 0 < t -> dup_phi t + nx r = (t + r + S t) / 4.
  Proof. intros Ht. unfold dup_phi, nx, lam, S. fold (X t) (Y t) (Z t). field. Qed.
  Lemma dup_prod t : 0 < t -> sqrt (dup_phi t + nx x) * sqrt (dup_phi t + nx y) * sqrt (dup_phi t + nx z)
    = (X t + Y t) * (Y t + Z t) * (X t + Z t) / 8.
  Proof.
    intros Ht. rewrite dup_x, dup_y, dup_z by auto. pose proof (Xp t Ht). pose proof (Yp t Ht). pose proof (Zp t Ht).
    assert (P1 : 0 < (X t + Y t)) by lra. assert (P2 : 0 < (Y t + Z t)) by lra. assert (P3 : 0 < (X t + Z t)) by lra.
    set (a := X t + Y t) in *. set (b := Y t + Z t) in *. set (c := X t + Z t) in *.
    assert (0 < a * c) by (apply Rmult_lt_0_compat; lra). assert (0 < a * b) by (apply Rmult_lt_0_compat; lra). assert (0 < c * b) by (apply Rmult_lt_0_compat; lra).
    rewrite <- sqrt_mult by lra. rewrite <- sqrt_mult; [|apply Rmult_le_pos; lra|lra].
    replace (a * c / 4 * (a * b / 4) * (c * b / 4)) with ((a * b * c / 8) * (a * b * c / 8)) by field.
    apply sqrt_square. assert (0 < a * b * c) by (apply Rmult_lt_0_compat; lra). lra.
  Qed.
  Lemma nx_pos a : 0 <= a -> (0 < a \/ 0 < lam) -> 0 < nx a.
  Proof.
    intros Ha H. unfold nx. assert (0 <= lam); [|lra]. unfold lam, lamR.
    pose proof (sqrt_pos x). pose proof (sqrt_pos y). pose proof (sqrt_pos z).
    assert (0 <= sqrt x * sqrt y) by (apply Rmult_le_pos; lra). assert (0 <= sqrt x * sqrt z) by (apply Rmult_le_pos; lra).
    assert (0 <= sqrt y * sqrt z) by (apply Rmult_le_pos; lra). lra.
  Qed.
  Lemma RF_dup l : is_RF (nx x) (nx y) (nx z) l -> is_RF x y z l.
  Proof.
    intros H. unfold is_RF in *. refine (gen_ext _ _ _ _ (gen_comp _ dup_phi dup_dphi 0+ oo l H dup_lim0 dup_limoo _)).
    - intros t Ht. cbv beta. rewrite dup_prod by auto. unfold dup_dphi. fold (X t) (Y t) (Z t).
      pose proof (Xp t Ht). pose proof (Yp t Ht). pose proof (Zp t Ht). field. repeat split; lra.
    - intros t Ht. split; [|split; [apply dup_derive; auto|apply dup_dphi_cont; auto]].
      pose proof (dup_prod t Ht) as E. pose proof (Xp t Ht). pose proof (Yp t Ht). pose proof (Zp t Ht).
      assert (P : 0 < sqrt (dup_phi t + nx x) * sqrt (dup_phi t + nx y) * sqrt (dup_phi t + nx z)).
      { rewrite E. apply Rdiv_lt_0_compat; [|lra]. repeat apply Rmult_lt_0_compat; lra. }
      apply (continuous_comp (fun t => 2 * (sqrt (t + nx x) * sqrt (t + nx y) * sqrt (t + nx z))) Rinv).
      + apply (continuous_scal_r 2 (fun t => sqrt (t + nx x) * sqrt (t + nx y) * sqrt (t + nx z))).
        apply (continuous_mult (fun t => sqrt (t + nx x) * sqrt (t + nx y)) (fun t => sqrt (t + nx z))); [|apply sqrt_cont].
        apply (continuous_mult (fun t => sqrt (t + nx x)) (fun t => sqrt (t + nx y))); apply sqrt_cont.
      + apply continuous_Rinv. lra.
  Qed.
  (** the third kind *)
  Variable r : R.
  Hypothesis hr : 0 < r.
  Let A t := (t + r) * (X t + Y t + Z t) + X t * Y t * Z t.
  Definition rc_psi (t : R) : R :=
    let a := (t + r) * (sqrt (t + x) + sqrt (t + y) + sqrt (t + z)) + sqrt (t + x) * sqrt (t + y) * sqrt (t + z) in
    let b := r * (sqrt x + sqrt y + sqrt z) + sqrt x * sqrt y * sqrt z in a * a - b * b.
  Definition rc_dpsi (t : R) : R :=
    let s := sqrt (t + x) * sqrt (t + y) + sqrt (t + x) * sqrt (t + z) + sqrt (t + y) * sqrt (t + z) in
    ((t + r) * (sqrt (t + x) + sqrt (t + y) + sqrt (t + z)) + sqrt (t + x) * sqrt (t + y) * sqrt (t + z)) *
    (s * (t + r + s)) / (sqrt (t + x) * sqrt (t + y) * sqrt (t + z)).
  Let alfa := (r * (sqrt x + sqrt y + sqrt z) + sqrt x * sqrt y * sqrt z) * (r * (sqrt x + sqrt y + sqrt z) + sqrt x * sqrt y * sqrt z).
  Let beta := r * ((r + lam) * (r + lam)).
  Let Ap t : 0 < t -> 0 < A t.
  Proof.
    intros Ht. pose proof (Xp t Ht). pose proof (Yp t Ht). pose proof (Zp t Ht). unfold A.
    assert (0 < X t * Y t * Z t) by (repeat apply Rmult_lt_0_compat; auto).
    assert (0 < (t + r) * (X t + Y t + Z t)) by (apply Rmult_lt_0_compat; lra). lra.
  Qed.
  Lemma rc_alfa t : rc_psi t + alfa = A t * A t.
  Proof. unfold rc_psi, alfa, A. fold (X t) (Y t) (Z t). ring. Qed.
  Lemma rc_beta t : 0 < t -> rc_psi t + beta = (t + r) * ((t + r + S t) * (t + r + S t)).
  Proof.
    intros Ht. pose proof (X2 t Ht) as EX. pose proof (Y2 t Ht) as EY. pose proof (Z2 t Ht) as EZ.
    assert (sx : sqrt x * sqrt x = x) by (apply sqrt_sqrt; lra). assert (sy : sqrt y * sqrt y = y) by (apply sqrt_sqrt; lra). assert (sz : sqrt z * sqrt z = z) by (apply sqrt_sqrt; lra).
    assert (D : forall p a b c, p * ((p + (a * b + a * c + b * c)) * (p + (a * b + a * c + b * c))) - (p * (a + b + c) + a * b * c) * (p * (a + b + c) + a * b * c)
      = (p - a * a) * (p - b * b) * (p - c * c)) by (intros; ring).
    unfold rc_psi, beta, lam, lamR, S. fold (X t) (Y t) (Z t).
    pose proof (D (t + r) (X t) (Y t) (Z t)) as D1. pose proof (D r (sqrt x) (sqrt y) (sqrt z)) as D2.
    rewrite EX, EY, EZ in D1. rewrite sx, sy, sz in D2.
    replace (t + r - (t + x)) with (r - x) in D1 by ring. replace (t + r - (t + y)) with (r - y) in D1 by ring. replace (t + r - (t + z)) with (r - z) in D1 by ring. lra.
  Qed.
  Lemma rc_derive t : 0 < t -> is_derive rc_psi t (rc_dpsi t).
  Proof.
    intros Ht. pose proof (Xp t Ht). pose proof (Yp t Ht). pose proof (Zp t Ht). pose proof (X2 t Ht) as EX. pose proof (Y2 t Ht) as EY. pose proof (Z2 t Ht) as EZ.
    unfold rc_psi, rc_dpsi. auto_derive; [repeat split; lra|]. fold (X t) (Y t) (Z t).
    field. repeat split; lra.
  Qed.
  Lemma rc_dpsi_cont t : 0 < t -> continuous rc_dpsi t.
  Proof.
    intros Ht. pose proof (Xp t Ht). pose proof (Yp t Ht). pose proof (Zp t Ht). apply (ex_derive_continuous rc_dpsi).
    unfold rc_dpsi. auto_derive. repeat split; try lra. repeat apply Rmult_integral_contrapositive_currified; apply Rgt_not_eq; auto.
  Qed.
  Let A0 := r * (sqrt x + sqrt y + sqrt z) + sqrt x * sqrt y * sqrt z.
  Lemma A_ge t : 0 < t -> A0 <= A t /\ t * sqrt z <= A t - A0.
  Proof.
    intros Ht. unfold A0, A, X, Y, Z.
    assert (H1 : sqrt x <= sqrt (t + x)) by (apply sqrt_le_1; lra). assert (H2 : sqrt y <= sqrt (t + y)) by (apply sqrt_le_1; lra). assert (H3 : sqrt z <= sqrt (t + z)) by (apply sqrt_le_1; lra).
    pose proof (sqrt_pos x). pose proof (sqrt_pos y). pose proof (sqrt_pos z).
    assert (P1 : sqrt x * sqrt y <= sqrt (t + x) * sqrt (t + y)) by (apply Rmult_le_compat; lra).
    assert (P2 : sqrt x * sqrt y * sqrt z <= sqrt (t + x) * sqrt (t + y) * sqrt (t + z)) by (apply Rmult_le_compat; auto; apply Rmult_le_pos; lra).
    assert (P3 : r * (sqrt x + sqrt y + sqrt z) <= r * (sqrt (t + x) + sqrt (t + y) + sqrt (t + z))) by (apply Rmult_le_compat_l; lra).
    assert (P4 : t * sqrt z <= t * (sqrt (t + x) + sqrt (t + y) + sqrt (t + z))) by (apply Rmult_le_compat_l; lra).
    assert (0 <= t * sqrt z) by (apply Rmult_le_pos; lra). split; nra.
  Qed.
  Let A0p : 0 < A0.
  Proof.
    unfold A0. pose proof (sqrt_pos x). pose proof (sqrt_pos y). pose proof (sqrt_lt_R0 z hz).
    assert (0 < r * (sqrt x + sqrt y + sqrt z)) by (apply Rmult_lt_0_compat; lra).
    assert (0 <= sqrt x * sqrt y * sqrt z) by (apply Rmult_le_pos; [apply Rmult_le_pos|]; lra). lra.
  Qed.
  Lemma rc_psi_ge t : 0 < t -> (A0 * sqrt z) * t <= rc_psi t.
  Proof.
    intros Ht. pose proof (rc_alfa t) as E. destruct (A_ge t Ht) as [H1 H2].
    unfold alfa in E. fold A0 in E. pose proof (sqrt_lt_R0 z hz). pose proof A0p. 
    assert (E2 : rc_psi t = (A t - A0) * (A t + A0)) by (rewrite <- (Rplus_minus_r (rc_psi t) (A0 * A0)), E || (replace (rc_psi t) with (A t * A t - A0 * A0) by lra; ring); ring).
    rewrite E2. assert (t * sqrt z * A0 <= (A t - A0) * (A t + A0)); [|lra].
    apply Rmult_le_compat; try lra. apply Rmult_le_pos; lra.
  Qed.
  Lemma rc_lim0 : filterlim rc_psi 0+ 0+.
  Proof.
    apply lim_right_right.
    - assert (C : continuous A 0).
      { apply (continuous_plus (fun t => (t + r) * (X t + Y t + Z t)) (fun t => X t * Y t * Z t)).
        - apply (continuous_mult (fun t => t + r) (fun t => X t + Y t + Z t)).
          + apply (continuous_plus (fun t : R => t) (fun _ => r)); [apply continuous_id|apply continuous_const].
          + apply (continuous_plus (fun t => X t + Y t) Z); [apply (continuous_plus X Y)|]; apply sqrt_cont.
        - apply (continuous_mult (fun t => X t * Y t) Z); [apply (continuous_mult X Y)|]; apply sqrt_cont. }
      apply (continuous_minus (fun t => A t * A t) (fun _ => A0 * A0)); [|apply continuous_const].
      apply (continuous_mult A A); auto.
    - unfold rc_psi. rewrite !Rplus_0_l. cbv zeta. ring.
    - intros t Ht. pose proof (rc_psi_ge t Ht). pose proof A0p. pose proof (sqrt_lt_R0 z hz).
      assert (0 < A0 * sqrt z * t) by (repeat apply Rmult_lt_0_compat; lra). lra.
  Qed.
  Lemma rc_limoo : filterlim rc_psi oo oo.
  Proof.
    apply (lim_oo_oo _ (A0 * sqrt z) 0); [apply Rmult_lt_0_compat; [apply A0p|apply sqrt_lt_R0, hz]|].
    intros t Ht. pose proof (rc_psi_ge t Ht). lra.
  Qed.
  Lemma RJ_dup l c : is_RC alfa beta c -> is_RJ (nx x) (nx y) (nx z) (nx r) l -> is_RJ x y z r (l / 4 + 3 * c).
  Proof.
    intros HC HJ. unfold is_RC, is_RJ in *.
    assert (H1 : is_RInt_gen (fun t => / (2 * (X t * Y t * Z t)) * (12 / (t + r + S t))) 0+ oo l).
    { refine (gen_ext _ _ _ _ (gen_comp _ dup_phi dup_dphi 0+ oo l HJ dup_lim0 dup_limoo _)).
      - intros t Ht. cbv beta. rewrite dup_prod, dup_r by auto. unfold dup_dphi. fold (X t) (Y t) (Z t).
        pose proof (Xp t Ht). pose proof (Yp t Ht). pose proof (Zp t Ht).
        assert (0 < S t) by (unfold S; repeat apply Rplus_lt_0_compat; apply Rmult_lt_0_compat; auto). field. repeat split; try lra.
      - intros t Ht. split; [|split; [apply dup_derive; auto|apply dup_dphi_cont; auto]].
        pose proof (dup_prod t Ht) as E. pose proof (Xp t Ht). pose proof (Yp t Ht). pose proof (Zp t Ht).
        assert (P : 0 < sqrt (dup_phi t + nx x) * sqrt (dup_phi t + nx y) * sqrt (dup_phi t + nx z)).
        { rewrite E. apply Rdiv_lt_0_compat; [|lra]. repeat apply Rmult_lt_0_compat; lra. }
        assert (0 < S t) by (unfold S; repeat apply Rplus_lt_0_compat; apply Rmult_lt_0_compat; auto).
        assert (P2 : 0 < dup_phi t + nx r) by (rewrite dup_r by auto; lra).
        apply (continuous_scal_r 3 (fun t => / (2 * (sqrt (t + nx x) * sqrt (t + nx y) * sqrt (t + nx z) * (t + nx r))))).
        apply (continuous_comp (fun t => 2 * (sqrt (t + nx x) * sqrt (t + nx y) * sqrt (t + nx z) * (t + nx r))) Rinv).
        + apply (continuous_scal_r 2 (fun t => sqrt (t + nx x) * sqrt (t + nx y) * sqrt (t + nx z) * (t + nx r))).
          apply (continuous_mult (fun t => sqrt (t + nx x) * sqrt (t + nx y) * sqrt (t + nx z)) (fun t => t + nx r)).
          * apply (continuous_mult (fun t => sqrt (t + nx x) * sqrt (t + nx y)) (fun t => sqrt (t + nx z))); [|apply sqrt_cont].
            apply (continuous_mult (fun t => sqrt (t + nx x)) (fun t => sqrt (t + nx y))); apply sqrt_cont.
          * apply (continuous_plus (fun t : R => t) (fun _ => nx r)); [apply continuous_id|apply continuous_const].
        + apply continuous_Rinv. assert (0 < sqrt (dup_phi t + nx x) * sqrt (dup_phi t + nx y) * sqrt (dup_phi t + nx z) * (dup_phi t + nx r)) by (apply Rmult_lt_0_compat; auto). lra. }
    assert (H2 : is_RInt_gen (fun t => / (2 * (X t * Y t * Z t)) * (S t / ((t + r) * (t + r + S t)))) 0+ oo c).
    { refine (gen_ext _ _ _ _ (gen_comp _ rc_psi rc_dpsi 0+ oo c HC rc_lim0 rc_limoo _)).
      - intros t Ht. cbv beta. rewrite rc_alfa, rc_beta by auto. rewrite sqrt_square by (pose proof (Ap t Ht); lra).
        unfold rc_dpsi. fold (X t) (Y t) (Z t). fold (S t). fold (A t). pose proof (Ap t Ht).
        pose proof (Xp t Ht). pose proof (Yp t Ht). pose proof (Zp t Ht).
        assert (0 < S t) by (unfold S; repeat apply Rplus_lt_0_compat; apply Rmult_lt_0_compat; auto). field. repeat split; try lra.
      - intros t Ht. split; [|split; [apply rc_derive; auto|apply rc_dpsi_cont; auto]].
        assert (0 < S t) by (unfold S; repeat apply Rplus_lt_0_compat; apply Rmult_lt_0_compat; auto).
        apply (continuous_comp (fun t => 2 * (sqrt (t + alfa) * (t + beta))) Rinv).
        + apply (continuous_scal_r 2 (fun t => sqrt (t + alfa) * (t + beta))). apply (continuous_mult (fun t => sqrt (t + alfa)) (fun t => t + beta)); [apply sqrt_cont|].
          apply (continuous_plus (fun t : R => t) (fun _ => beta)); [apply continuous_id|apply continuous_const].
        + apply continuous_Rinv. rewrite rc_alfa, rc_beta by auto. rewrite sqrt_square by (pose proof (Ap t Ht); lra).
          pose proof (Ap t Ht). assert (0 < A t * ((t + r) * ((t + r + S t) * (t + r + S t)))) by (repeat apply Rmult_lt_0_compat; lra). lra. }
    assert (H3 := is_RInt_gen_plus _ _ _ _ (is_RInt_gen_scal _ (/ 4) _ H1) (is_RInt_gen_scal _ 3 _ H2)).
    replace (l / 4 + 3 * c) with (plus (scal (/ 4) l) (scal 3 c)) by (cbn; unfold plus, scal, mult; cbn; unfold mult; cbn; field).
    refine (gen_ext _ _ _ _ H3). intros t Ht. unfold plus, scal; cbn; unfold mult; cbn. fold (X t) (Y t) (Z t).
    pose proof (Xp t Ht). pose proof (Yp t Ht). pose proof (Zp t Ht).
    assert (0 < S t) by (unfold S; repeat apply Rplus_lt_0_compat; apply Rmult_lt_0_compat; auto). field. repeat split; lra.
  Qed.
End Dup.
