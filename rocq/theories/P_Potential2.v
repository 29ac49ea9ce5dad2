(** * C121, continued: point doublets and straight doublet lines *)
From Coquelicot Require Import Coquelicot.
From Coq Require Import ZArith List Bool Arith Lia String Reals Lra Psatz.
From Verif Require Import Num NumR NumX M_Elliptic M_Line M_Cylinder M_Ring M_Doublet M_Skewed L_List L_X L_Angles L_Built Spec SpecBS SpecField L_Calc L_Ell L_Cyl L_Carlson P_Line P_Ring P_Doublet P_Skewed P_Cylinder P_Cylinder2 P_Cylinder3 P_Blockage P_Potential.
Import ListNotations.
Local Open Scope R_scope.
Local Notation len := List.length.

Definition L3 (x y z : R) := sqrt (x * x + y * y + z * z).
Ltac der := 
  match goal with H : 0 < ?x * ?x + ?y * ?y + ?z * ?z |- _ =>
    let w := fresh "w" in let W := fresh "W" in
    assert (W : 0 < sqrt (x * x + y * y + z * z)) by (apply sqrt_lt_R0; exact H); unfold L3;
    auto_derive; [repeat split; auto; apply Rgt_not_eq; repeat apply Rmult_lt_0_compat; auto; lra|] end.
Section Sink.
  Variables k x y z : R.
  Hypothesis P : 0 < x * x + y * y + z * z.
  Let L := L3 x y z.
  Lemma L_pos : 0 < L /\ L * L = x * x + y * y + z * z.
  Proof using P. split; [apply sqrt_lt_R0; exact P|apply sqrt_sqrt; lra]. Qed.
  (** d(x/L^3)/dx and d(x/L^3)/dy *)
  Lemma s_same : is_derive (fun t => k * t / L3 t y z ^ 3) x (k * (/ L ^ 3 - 3 * (x * x) / L ^ 5)).
  Proof using P. destruct L_pos as [A B]. der. fold (L3 x y z). fold L. field. lra. Qed.
  Lemma s_cross c : is_derive (fun t => k * c / L3 t y z ^ 3) x (k * (- (3 * (c * x) / L ^ 5))).
  Proof using P. destruct L_pos as [A B]. der. fold (L3 x y z). fold L. field. lra. Qed.
End Sink.
Lemma L3_rot x y z : L3 x y z = L3 y z x.
Proof. unfold L3. f_equal. ring. Qed.
Lemma L3_sw x y z : L3 x y z = L3 y x z.
Proof. unfold L3. f_equal. ring. Qed.
Definition sink (k : R) (q : R3) : R3 := (k * px q / L3 (px q) (py q) (pz q) ^ 3, k * py q / L3 (px q) (py q) (pz q) ^ 3, k * pz q / L3 (px q) (py q) (pz q) ^ 3).
Lemma sink_potential k p : 0 < px p * px p + py p * py p + pz p * pz p -> potential_flow (sink k) p.
Proof.
  destruct p as [[x y] z]. unfold px, py, pz. cbn [fst snd]. intros P. set (L := L3 x y z). destruct (L_pos x y z P) as [A B]. fold L in A, B.
  assert (P' : 0 < y * y + x * x + z * z) by lra. assert (P'' : 0 < z * z + x * x + y * y) by lra.
  assert (EY : forall t, L3 t x z = L3 x t z) by (intros; apply L3_sw). assert (EZ : forall t, L3 t x y = L3 x y t) by (intros; apply L3_rot).
  assert (DY : forall f v, is_derive (fun t => f t / L3 t x z ^ 3) y v -> is_derive (fun t => f t / L3 x t z ^ 3) y v). { intros f v H. eapply is_derive_ext; [|exact H]. intros t. cbn beta. rewrite EY. reflexivity. }
  assert (DZ : forall f v, is_derive (fun t => f t / L3 t x y ^ 3) z v -> is_derive (fun t => f t / L3 x y t ^ 3) z v). { intros f v H. eapply is_derive_ext; [|exact H]. intros t. cbn beta. rewrite EZ. reflexivity. }
  pose proof (s_same k x y z P) as X1. pose proof (DY (fun t => k * t) _ (s_same k y x z P')) as Y1. pose proof (DZ (fun t => k * t) _ (s_same k z x y P'')) as Z1.
  pose proof (fun c => s_cross k x y z P c) as XC. pose proof (fun c => DY (fun _ => k * c) _ (s_cross k y x z P' c)) as YC. pose proof (fun c => DZ (fun _ => k * c) _ (s_cross k z x y P'' c)) as ZC.
  rewrite EY in Y1. rewrite EZ in Z1. fold L in X1, Y1, Z1. split.
  - exists (k * (/ L ^ 3 - 3 * (x * x) / L ^ 5)), (k * (/ L ^ 3 - 3 * (y * y) / L ^ 5)), (k * (/ L ^ 3 - 3 * (z * z) / L ^ 5)).
    unfold partial_x, partial_y, partial_z, sink, px, py, pz. cbn [fst snd]. split; [exact X1|]. split; [exact Y1|]. split; [exact Z1|].
    replace (z * z) with (L * L - x * x - y * y) by lra. field. lra.
  - exists (k * (- (3 * (z * y) / L ^ 5))), (k * (- (3 * (x * z) / L ^ 5))), (k * (- (3 * (y * x) / L ^ 5))).
    unfold partial_x, partial_y, partial_z, sink, px, py, pz. cbn [fst snd].
    split; [specialize (YC z); rewrite EY in YC; exact YC|]. split; [replace (z * y) with (y * z) by ring; specialize (ZC y); rewrite EZ in ZC; exact ZC|].
    split; [specialize (ZC x); rewrite EZ in ZC; exact ZC|]. split; [replace (x * z) with (z * x) by ring; exact (XC z)|].
    split; [exact (XC y)|]. replace (y * x) with (x * y) by ring. specialize (YC x). rewrite EY in YC. exact YC.
Qed.
Section Dbl.
  Variables m1 m2 m3 x y z : R.
  Hypothesis P : 0 < x * x + y * y + z * z.
  Let L := L3 x y z.
  Let s := m1 * x + m2 * y + m3 * z.
  Let k := / (4 * PI).
  Lemma d_same : is_derive (fun t => k * (3 * (m1 * t + m2 * y + m3 * z) * t / L3 t y z ^ 5 - m1 / L3 t y z ^ 3)) x (k * (3 * (2 * m1 * x + s) / L ^ 5 - 15 * s * x * x / L ^ 7)).
  Proof using P. pose proof PI_RGT_0. destruct (L_pos x y z P) as [A B]. der. fold (L3 x y z). fold L in A, B. fold L. unfold s, k. field. lra. Qed.
  Lemma d_cross mj j : is_derive (fun t => k * (3 * (m1 * t + m2 * y + m3 * z) * j / L3 t y z ^ 5 - mj / L3 t y z ^ 3)) x (k * (3 * (m1 * j + mj * x) / L ^ 5 - 15 * s * x * j / L ^ 7)).
  Proof using P. pose proof PI_RGT_0. destruct (L_pos x y z P) as [A B]. der. fold (L3 x y z). fold L in A, B. fold L. unfold s, k. field. lra. Qed.
End Dbl.
Definition dbl (m q : R3) : R3 := let s := px m * px q + py m * py q + pz m * pz q in let L := L3 (px q) (py q) (pz q) in
  (/ (4 * PI) * (3 * s * px q / L ^ 5 - px m / L ^ 3), / (4 * PI) * (3 * s * py q / L ^ 5 - py m / L ^ 3), / (4 * PI) * (3 * s * pz q / L ^ 5 - pz m / L ^ 3)).
Lemma dbl_potential m p : 0 < px p * px p + py p * py p + pz p * pz p -> potential_flow (dbl m) p.
Proof.
  destruct m as [[m1 m2] m3], p as [[x y] z]. unfold px, py, pz. cbn [fst snd]. intros P. set (L := L3 x y z). destruct (L_pos x y z P) as [A B]. fold L in A, B. pose proof PI_RGT_0 as HP.
  set (s := m1 * x + m2 * y + m3 * z). set (k := / (4 * PI)).
  assert (P' : 0 < y * y + x * x + z * z) by lra. assert (P'' : 0 < z * z + x * x + y * y) by lra.
  assert (DY : forall mj (j : R -> R) v, is_derive (fun t => k * (3 * (m2 * t + m1 * x + m3 * z) * j t / L3 t x z ^ 5 - mj / L3 t x z ^ 3)) y v -> is_derive (fun t => k * (3 * (m1 * x + m2 * t + m3 * z) * j t / L3 x t z ^ 5 - mj / L3 x t z ^ 3)) y v).
  { intros mj j v H. eapply is_derive_ext; [|exact H]. intros t. cbn beta. rewrite (L3_sw t x z). replace (m1 * x + m2 * t) with (m2 * t + m1 * x) by ring. reflexivity. }
  assert (DZ : forall mj (j : R -> R) v, is_derive (fun t => k * (3 * (m3 * t + m1 * x + m2 * y) * j t / L3 t x y ^ 5 - mj / L3 t x y ^ 3)) z v -> is_derive (fun t => k * (3 * (m1 * x + m2 * y + m3 * t) * j t / L3 x y t ^ 5 - mj / L3 x y t ^ 3)) z v).
  { intros mj j v H. eapply is_derive_ext; [|exact H]. intros t. cbn beta. rewrite (L3_rot t x y). replace (m1 * x + m2 * y + m3 * t) with (m3 * t + m1 * x + m2 * y) by ring. reflexivity. }
  pose proof (d_same m1 m2 m3 x y z P) as X1. pose proof (DY m2 (fun t => t) _ (d_same m2 m1 m3 y x z P')) as Y1. pose proof (DZ m3 (fun t => t) _ (d_same m3 m1 m2 z x y P'')) as Z1.
  pose proof (fun mj j => d_cross m1 m2 m3 x y z P mj j) as XC. pose proof (fun mj j => DY mj (fun _ => j) _ (d_cross m2 m1 m3 y x z P' mj j)) as YC. pose proof (fun mj j => DZ mj (fun _ => j) _ (d_cross m3 m1 m2 z x y P'' mj j)) as ZC.
  rewrite (L3_sw y x z) in *. rewrite (L3_rot z x y) in *. fold L in X1, Y1, Z1, XC, YC, ZC. fold k in X1, Y1, Z1, XC, YC, ZC.
  replace (m2 * y + m1 * x + m3 * z) with s in * by (unfold s; ring). replace (m3 * z + m1 * x + m2 * y) with s in * by (unfold s; ring). fold s in X1, XC. split.
  - eexists _, _, _. unfold partial_x, partial_y, partial_z, dbl, px, py, pz. cbn [fst snd]. split; [exact X1|]. split; [exact Y1|]. split; [exact Z1|].
    transitivity (k * (15 * s * (L * L) - 15 * s * (x * x + y * y + z * z)) / L ^ 7); [unfold s; field; lra|rewrite B; field; lra].
  - exists (k * (3 * (m2 * z + m3 * y) / L ^ 5 - 15 * s * y * z / L ^ 7)), (k * (3 * (m3 * x + m1 * z) / L ^ 5 - 15 * s * z * x / L ^ 7)), (k * (3 * (m1 * y + m2 * x) / L ^ 5 - 15 * s * x * y / L ^ 7)).
    unfold partial_x, partial_y, partial_z, dbl, px, py, pz. cbn [fst snd].
    split; [exact (YC m3 z)|]. split; [replace (k * (3 * (m2 * z + m3 * y) / L ^ 5 - 15 * s * y * z / L ^ 7)) with (k * (3 * (m3 * y + m2 * z) / L ^ 5 - 15 * s * z * y / L ^ 7)) by (field; lra); exact (ZC m2 y)|].
    split; [exact (ZC m1 x)|]. split; [replace (k * (3 * (m3 * x + m1 * z) / L ^ 5 - 15 * s * z * x / L ^ 7)) with (k * (3 * (m1 * z + m3 * x) / L ^ 5 - 15 * s * x * z / L ^ 7)) by (field; lra); exact (XC m3 z)|].
    split; [exact (XC m2 y)|]. replace (k * (3 * (m1 * y + m2 * x) / L ^ 5 - 15 * s * x * y / L ^ 7)) with (k * (3 * (m2 * x + m1 * y) / L ^ 5 - 15 * s * y * x / L ^ 7)) by (field; lra). exact (YC m1 x).
Qed.
(** ** Lines of doublets *)
Section DLine.
  Variables k m x y z : R.
  Let c := sqrt (m * m + 1).
  Let a := L3 x y z.
  Let S := a * c - (m * x + z).
  Hypothesis P : 0 < x * x + y * y + z * z.
  Hypothesis HS : 0 < S.
  Definition lu (x y z : R) : R3 := let a := L3 x y z in let S := a * c - (m * x + z) in
    (k * (x * z * ((a * c + S) / (a * a * a * (S * S))) + m * (1 / (c * (S * S))) - (m * z + x) * (1 / (a * (S * S)))),
     k * (y * z * ((a * c + S) / (a * a * a * (S * S))) - y * (1 / (a * (S * S)))),
     k * (z * z * ((a * c + S) / (a * a * a * (S * S))) + 1 / (c * (S * S)) - 2 * z * (1 / (a * (S * S))) - 1 / (a * S))).
  (** minus the potential is N/S with N = z/a - 1/c; its second derivatives *)
  Let N := z / a - 1 / c.
  Definition H2 (Nij Ni Nj Sij Si Sj : R) : R := - k * (Nij / S - (Ni * Sj + Nj * Si + N * Sij) / (S * S) + 2 * N * Si * Sj / (S * S * S)).
  Let Nx := - (z * x) / (a * a * a).
  Let Ny := - (z * y) / (a * a * a).
  Let Nz := 1 / a - z * z / (a * a * a).
  Let Sx := c * x / a - m.
  Let Sy := c * y / a.
  Let Sz := c * z / a - 1.
  Lemma cpos : 0 < c /\ c * c = m * m + 1.
  Proof. assert (0 < m * m + 1) by (pose proof (Rsq_pos m); lra). split; [apply sqrt_lt_R0; auto|apply sqrt_sqrt; lra]. Qed.
  Definition Hxx := H2 (- z / (a * a * a) + 3 * z * (x * x) / a ^ 5) Nx Nx (c / a - c * (x * x) / (a * a * a)) Sx Sx.
  Definition Hyy := H2 (- z / (a * a * a) + 3 * z * (y * y) / a ^ 5) Ny Ny (c / a - c * (y * y) / (a * a * a)) Sy Sy.
  Definition Hzz := H2 (- (3) * z / (a * a * a) + 3 * z * (z * z) / a ^ 5) Nz Nz (c / a - c * (z * z) / (a * a * a)) Sz Sz.
  Definition Hxy := H2 (3 * z * x * y / a ^ 5) Nx Ny (- c * x * y / (a * a * a)) Sx Sy.
  Definition Hxz := H2 (- x / (a * a * a) + 3 * z * x * z / a ^ 5) Nx Nz (- c * x * z / (a * a * a)) Sx Sz.
  Definition Hyz := H2 (- y / (a * a * a) + 3 * z * y * z / a ^ 5) Ny Nz (- c * y * z / (a * a * a)) Sy Sz.
  Ltac dl := 
    let A := fresh in let B := fresh in destruct cpos as [A _]; pose proof HS as B; assert (W : 0 < a) by (apply sqrt_lt_R0; exact P);
    unfold S, a, L3 in B; unfold a, L3 in W; unfold lu; cbv zeta; unfold px, py, pz; cbn [fst snd]; unfold L3;
    auto_derive; [unfold Rminus in B; repeat split; auto; try lra; apply Rgt_not_eq; repeat apply Rmult_lt_0_compat; auto|];
    unfold H2, N, Nx, Ny, Nz, Sx, Sy, Sz, S, a, L3; set (w := sqrt (x * x + y * y + z * z)) in *; clearbody w; field; repeat split; lra.
  Lemma lu_xx : is_derive (fun t => px (lu t y z)) x Hxx. Proof using P HS. unfold Hxx. dl. Qed.
  Lemma lu_xy : is_derive (fun t => px (lu x t z)) y Hxy. Proof using P HS. unfold Hxy. dl. Qed.
  Lemma lu_xz : is_derive (fun t => px (lu x y t)) z Hxz. Proof using P HS. unfold Hxz. dl. Qed.
  Lemma lu_yx : is_derive (fun t => py (lu t y z)) x Hxy. Proof using P HS. unfold Hxy. dl. Qed.
  Lemma lu_yy : is_derive (fun t => py (lu x t z)) y Hyy. Proof using P HS. unfold Hyy. dl. Qed.
  Lemma lu_yz : is_derive (fun t => py (lu x y t)) z Hyz. Proof using P HS. unfold Hyz. dl. Qed.
  Lemma lu_zx : is_derive (fun t => pz (lu t y z)) x Hxz. Proof using P HS. unfold Hxz. dl. Qed.
  Lemma lu_zy : is_derive (fun t => pz (lu x t z)) y Hyz. Proof using P HS. unfold Hyz. dl. Qed.
  Lemma lu_zz : is_derive (fun t => pz (lu x y t)) z Hzz. Proof using P HS. unfold Hzz. dl. Qed.
  Lemma lu_div : Hxx + Hyy + Hzz = 0.
  Proof using P HS.
    destruct cpos as [C1 C2]. destruct (L_pos x y z P) as [A1 A2]. fold a in A1, A2. clearbody c a.
    assert (EY : y * y = a * a - x * x - z * z) by lra. assert (EM : m * m = c * c - 1) by lra.
    assert (S1 : (- z / (a * a * a) + 3 * z * (x * x) / a ^ 5) + (- z / (a * a * a) + 3 * z * (y * y) / a ^ 5) + (- (3) * z / (a * a * a) + 3 * z * (z * z) / a ^ 5) = - (2) * z / (a * a * a)) by (rewrite EY; field; lra).
    assert (S2 : Nx * Sx + Ny * Sy + Nz * Sz = - (1) / a + z * (m * x + z) / (a * a * a)).
    { unfold Nx, Ny, Nz, Sx, Sy, Sz. transitivity (- z * x / (a * a * a) * (c * x / a - m) - z * c * (y * y) / (a * a * a * a) + (1 / a - z * z / (a * a * a)) * (c * z / a - 1)); [field; lra|]. rewrite EY. field. lra. }
    assert (S3 : (c / a - c * (x * x) / (a * a * a)) + (c / a - c * (y * y) / (a * a * a)) + (c / a - c * (z * z) / (a * a * a)) = 2 * c / a) by (rewrite EY; field; lra).
    assert (S4 : Sx * Sx + Sy * Sy + Sz * Sz = 2 * c * S / a).
    { unfold Sx, Sy, Sz, S. transitivity (c * c * (x * x) / (a * a) - 2 * c * x * m / a + m * m + c * c * (y * y) / (a * a) + (c * z / a - 1) * (c * z / a - 1)); [field; lra|]. rewrite EY, EM. field. lra. }
    unfold Hxx, Hyy, Hzz, H2.
    transitivity (- k * (((- z / (a * a * a) + 3 * z * (x * x) / a ^ 5) + (- z / (a * a * a) + 3 * z * (y * y) / a ^ 5) + (- (3) * z / (a * a * a) + 3 * z * (z * z) / a ^ 5)) / S
       - (2 * (Nx * Sx + Ny * Sy + Nz * Sz) + N * ((c / a - c * (x * x) / (a * a * a)) + (c / a - c * (y * y) / (a * a * a)) + (c / a - c * (z * z) / (a * a * a)))) / (S * S) + 2 * N * (Sx * Sx + Sy * Sy + Sz * Sz) / (S * S * S))).
    { set (q1 := - z / (a * a * a) + 3 * z * (x * x) / a ^ 5). set (q2 := - z / (a * a * a) + 3 * z * (y * y) / a ^ 5). set (q3 := - (3) * z / (a * a * a) + 3 * z * (z * z) / a ^ 5).
      set (t1 := c / a - c * (x * x) / (a * a * a)). set (t2 := c / a - c * (y * y) / (a * a * a)). set (t3 := c / a - c * (z * z) / (a * a * a)).
      clearbody q1 q2 q3 t1 t2 t3. clear S1 S2 S3 S4. clearbody S Nx Ny Nz Sx Sy Sz N. field. lra. }
    rewrite S1, S2, S3, S4. unfold N. assert (EB : m * x + z = a * c - S) by (unfold S; ring). rewrite EB. clearbody S. field. repeat split; lra.
  Qed.
End DLine.
Lemma lu_potential k m p : 0 < px p * px p + py p * py p + pz p * pz p -> 0 < L3 (px p) (py p) (pz p) * sqrt (m * m + 1) - (m * px p + pz p) ->
  potential_flow (fun q => lu k m (px q) (py q) (pz q)) p.
Proof.
  destruct p as [[x y] z]. unfold px at 1 2 3 4, py at 1 2 3, pz at 1 2 3 4. cbn [fst snd]. intros P HS. split.
  - exists (Hxx k m x y z), (Hyy k m x y z), (Hzz k m x y z). split; [apply lu_xx; auto|]. split; [apply lu_yy; auto|]. split; [apply lu_zz; auto|apply lu_div; auto].
  - exists (Hyz k m x y z), (Hxz k m x y z), (Hxy k m x y z). split; [apply lu_zy; auto|]. split; [apply lu_yz; auto|]. split; [apply lu_xz; auto|]. split; [apply lu_zx; auto|]. split; [apply lu_yx; auto|apply lu_xy; auto].
Qed.
(** ** Translation and the theorems about the code *)
Lemma der_shift (f : R -> R) (x a v : R) : is_derive f (x - a) v -> is_derive (fun t => f (t - a)) x v.
Proof. intros H. assert (K := is_derive_compR f (fun t => t - a) x v 1 H ltac:(auto_derive; [exact I|reflexivity])). cbn beta in K. rewrite Rmult_1_l in K. exact K. Qed.
Lemma potential_shift u x0 p : potential_flow u (sub3 p x0) -> potential_flow (fun q => u (sub3 q x0)) p.
Proof.
  intros [(a & b & c & A & B & C & E) (a' & b' & c' & H1 & H2' & H3 & H4 & H5 & H6)].
  destruct x0 as [[x1 y1] z1], p as [[x y] z]. unfold partial_x, partial_y, partial_z, sub3, px, py, pz in *. cbn [fst snd] in *. split.
  - exists a, b, c. unfold partial_x, partial_y, partial_z, sub3, px, py, pz. cbn [fst snd].
    split; [exact (der_shift (fun t => fst (fst (u (t, y - y1, z - z1)))) x x1 a A)|].
    split; [exact (der_shift (fun t => snd (fst (u (x - x1, t, z - z1)))) y y1 b B)|].
    split; [exact (der_shift (fun t => snd (u (x - x1, y - y1, t))) z z1 c C)|exact E].
  - exists a', b', c'. unfold partial_x, partial_y, partial_z, sub3, px, py, pz. cbn [fst snd].
    split; [exact (der_shift (fun t => snd (u (x - x1, t, z - z1))) y y1 a' H1)|].
    split; [exact (der_shift (fun t => snd (fst (u (x - x1, y - y1, t)))) z z1 a' H2')|].
    split; [exact (der_shift (fun t => fst (fst (u (x - x1, y - y1, t)))) z z1 b' H3)|].
    split; [exact (der_shift (fun t => snd (u (t, y - y1, z - z1))) x x1 b' H4)|].
    split; [exact (der_shift (fun t => snd (fst (u (t, y - y1, z - z1)))) x x1 c' H5)|exact (der_shift (fun t => fst (fst (u (x - x1, t, z - z1)))) y y1 c' H6)].
Qed.
Lemma L3_length (q : R3) : length3 q = L3 (px q) (py q) (pz q).
Proof. reflexivity. Qed.
Lemma length3_near (p q : R3) e : 0 < e -> Rabs (px q - px p) < e -> Rabs (py q - py p) < e -> Rabs (pz q - pz p) < e -> length3 p - 2 * e <= length3 q.
Proof.
  intros he A B C. destruct p as [[x y] z], q as [[x' y'] z']. unfold px, py, pz in *. cbn [fst snd] in *.
  set (d := sub3 (x, y, z) (x', y', z')). 
  assert (D : length3 d <= 2 * e).
  { unfold length3, d, inner, sub3, px, py, pz. cbn [fst snd]. rewrite <- (sqrt_square (2 * e)) by lra. apply sqrt_le_1_alt. apply Rabs_def2 in A. apply Rabs_def2 in B. apply Rabs_def2 in C. nra. }
  assert (CS : inner (x', y', z') d <= length3 (x', y', z') * length3 d).
  { unfold length3. rewrite <- sqrt_mult by apply inner_pos. destruct (Rle_lt_dec 0 (inner (x', y', z') d)) as [L|L]; [|pose proof (sqrt_pos (inner (x', y', z') (x', y', z') * inner d d)); lra].
    rewrite <- (sqrt_square (inner (x', y', z') d)) by auto. apply sqrt_le_1_alt. destruct d as [[d1 d2] d3]. unfold inner, px, py, pz. cbn [fst snd].
    pose proof (Rsq_pos (x' * d2 - y' * d1)). pose proof (Rsq_pos (x' * d3 - z' * d1)). pose proof (Rsq_pos (y' * d3 - z' * d2)). nra. }
  pose proof (length3_pos d). pose proof (length3_pos (x', y', z')). pose proof (length3_sq d). pose proof (length3_sq (x', y', z')).
  assert (T : length3 (x, y, z) <= length3 (x', y', z') + length3 d); [|lra].
  rewrite <- (sqrt_square (length3 (x', y', z') + length3 d)) by lra. unfold length3 at 1. apply sqrt_le_1_alt.
  assert (E : inner (x, y, z) (x, y, z) = inner (x', y', z') (x', y', z') + 2 * inner (x', y', z') d + inner d d) by (unfold inner, d, sub3, px, py, pz; cbn [fst snd]; ring).
  rewrite E. nra.
Qed.
Theorem C121_doublet : forall m x0 p, 1 / 100000000 < length3 (sub3 p x0) ^ 3 ->
  potential_flow (fun q => to3 (doublet_u (N := XN) (xv m) (xv x0) (xv q))) p.
Proof.
  intros m x0 p H. set (w := length3 (sub3 p x0)) in *. pose proof (length3_pos (sub3 p x0)) as W0. fold w in W0.
  assert (W : 0 < w). { destruct W0 as [|W0]; auto. rewrite <- W0 in H. lra. }
  apply (potential_ext (fun q => dbl m (sub3 q x0))).
  - set (e := Rmin (w / 4) ((w ^ 3 - 1 / 100000000) / (12 * (w * w)))). assert (W2 : 0 < w * w) by (apply Rmult_lt_0_compat; auto).
    assert (he : 0 < e). { apply Rmin_pos; [lra|]. apply Rdiv_lt_0_compat; lra. }
    exists e. split; [auto|]. intros q A B C. rewrite doublet_X.
    assert (N : w - 2 * e <= length3 (sub3 q x0)). { apply (length3_near (sub3 p x0)); auto; destruct p as [[? ?] ?], q as [[? ?] ?], x0 as [[? ?] ?]; unfold sub3, px, py, pz in *; cbn [fst snd] in *; match goal with |- Rabs (?a - ?b - (?c - ?b)) < _ => replace (a - b - (c - b)) with (a - c) by ring end; auto. }
    assert (E1 : e <= w / 4) by apply Rmin_l. assert (E2 : e <= (w ^ 3 - 1 / 100000000) / (12 * (w * w))) by apply Rmin_r.
    assert (E3 : e * (12 * (w * w)) <= w ^ 3 - 1 / 100000000). { apply (Rmult_le_compat_r (12 * (w * w))) in E2; [|lra]. replace ((w ^ 3 - 1 / 100000000) / (12 * (w * w)) * (12 * (w * w))) with (w ^ 3 - 1 / 100000000) in E2 by (field; lra). exact E2. }
    assert (N3 : (w - 2 * e) ^ 3 <= length3 (sub3 q x0) ^ 3) by (apply pow_incr; lra).
    assert (N4 : w ^ 3 - 6 * e * (w * w) <= (w - 2 * e) ^ 3). { replace ((w - 2 * e) ^ 3) with (w ^ 3 - 6 * e * (w * w) + 4 * (e * e) * (3 * w - 2 * e)) by ring. assert (0 <= 4 * (e * e) * (3 * w - 2 * e)) by (apply Rmult_le_pos; [nra|lra]). lra. }
    assert (Z : 0 < e * (w * w)) by (apply Rmult_lt_0_compat; auto).
    assert (NB : 1 / 100000000 <= length3 (sub3 q x0) ^ 3) by lra.
    rewrite (proj2 (Rltb_false _ _)) by exact NB. rewrite to3_xv. pose proof (length3_pos (sub3 q x0)) as LP. assert (LQ : 0 < length3 (sub3 q x0)) by lra.
    unfold point_doublet, dbl. rewrite L3_length in LQ |- *. set (r := sub3 q x0) in *. unfold scal3, sub3, inner, px, py, pz. cbn [fst snd]. pose proof PI_RGT_0.
    unfold px, py, pz in LQ. destruct r as [[r1 r2] r3]. cbn [fst snd] in *. f_equal; [f_equal|]; field; split; lra.
  - apply (potential_shift (dbl m)). apply dbl_potential. pose proof (length3_sq (sub3 p x0)) as Q. fold w in Q. unfold inner in Q. rewrite <- Q. apply Rmult_lt_0_compat; auto.
Qed.
(** skewed and straight semi-infinite lines of doublets, off the strip where the code returns zero *)
Theorem C121_doublet_line : forall D m p,
  (1 / 100000000 < Rabs (py p) \/ 1 / 100000000 < Rabs (px p - m * pz p) \/ pz p < 0) ->
  potential_flow (fun q => to3 (doublet_line_u (N := XN) (Fin D) (Fin m) PInf (xv q))) p.
Proof.
  intros D m p H.
  assert (K : exists e, 0 < e /\ forall q, Rabs (px q - px p) < e -> Rabs (py q - py p) < e -> Rabs (pz q - pz p) < e -> ~ near_line m None q).
  { destruct H as [H|[H|H]].
    - exists (Rabs (py p) - 1 / 100000000). split; [lra|]. intros q A B C (N & _). pose proof (Rabs_triang (py q) (py p - py q)) as T. replace (py q + (py p - py q)) with (py p) in T by ring. rewrite (Rabs_minus_sym (py p)) in T. lra.
    - set (d := Rabs (px p - m * pz p) - 1 / 100000000). pose proof (Rabs_pos m) as M0. assert (M1 : 0 < 1 + Rabs m) by lra. exists (d / (1 + Rabs m)). split; [apply Rdiv_lt_0_compat; unfold d; lra|].
      intros q A B C (_ & N & _). pose proof (Rabs_triang (px q - m * pz q) (px p - px q - m * (pz p - pz q))) as T. replace (px q - m * pz q + (px p - px q - m * (pz p - pz q))) with (px p - m * pz p) in T by ring.
      pose proof (Rabs_triang (px p - px q) (- (m * (pz p - pz q)))) as T2. rewrite Rabs_Ropp, Rabs_mult in T2. rewrite (Rabs_minus_sym (px p)), (Rabs_minus_sym (pz p)) in T2.
      assert (Rabs m * Rabs (pz q - pz p) <= Rabs m * (d / (1 + Rabs m))) by (apply Rmult_le_compat_l; lra).
      assert (d / (1 + Rabs m) + Rabs m * (d / (1 + Rabs m)) = d) by (field; lra). unfold Rminus in T, T2 |- *. unfold d, Rminus in *. lra.
    - exists (- pz p). split; [lra|]. intros q A B C (_ & _ & N & _). apply Rabs_def2 in C. lra. }
  destruct K as (e & he & K). pose proof PI_RGT_0 as HP.
  assert (F : forall q, ~ near_line m None q -> to3 (doublet_line_u (N := XN) (Fin D) (Fin m) PInf (xv q)) = lu (D / (4 * PI)) m (px q) (py q) (pz q) /\ 0 < length3 q /\ 0 < length3 q * sqrt (m * m + 1) - (m * px q + pz q)).
  { intros [[x y] z] NL. pose proof (off_line m x y z (not_near_off _ _ _ _ NL)) as [Ha Hb]. destruct (cpos m) as [Hc _]. set (a := length3 (x, y, z)) in *. set (c := sqrt (m * m + 1)) in *.
    set (S := a * c - (m * x + z)). assert (HS : 0 < S) by (unfold S; lra). split; [|split; [exact Ha|exact HS]].
    assert (E := dl_X D m None (x, y, z) (1 / (a * S)) ((2 * a * c - (m * x + z)) / (a * a * a * (S * S))) (1 / (a * (S * S))) (1 / (c * (S * S))) NL).
    cbn [lenX] in E. rewrite E; clear E.
    - rewrite to3_xv. unfold line_val, lu. cbv zeta. change (L3 (px (x, y, z)) (py (x, y, z)) (pz (x, y, z))) with a. unfold px, py, pz. cbn [fst snd]. fold c. fold S. replace (2 * a * c - (m * x + z)) with (a * c + S) by (unfold S; ring). reflexivity.
    - cbn [lenX neqb XN xeqb ninf]. cbn [px py pz fst snd]. fold a. fold c.
      unfold I30, tI50, tI51, tI52. xn. fold S. rewrite !xdiv_fin by (apply Rgt_not_eq; repeat apply Rmult_lt_0_compat; lra). reflexivity. }
  apply (potential_ext (fun q => lu (D / (4 * PI)) m (px q) (py q) (pz q))).
  - exists e. split; [auto|]. intros q A B C. symmetry. apply (F q). auto.
  - destruct (F p) as (_ & F1 & F2); [apply K; apply abs_0; auto|]. apply lu_potential; [|exact F2].
    pose proof (length3_sq p) as Q. unfold inner in Q. rewrite <- Q. apply Rmult_lt_0_compat; auto.
Qed.
(** the hypotheses hold at ordinary points *)
Example C121_nonvacuous : potential_flow (fun q => to3 (ring_u (N := XN) (Fin 3) (Fin 2) (Fin 0) (xv q))) (1, 0, 1) /\
  potential_flow (fun q => to3 (doublet_u (N := XN) (xv (1, 2, 3)) (xv (0, 0, 0)) (xv q))) (3, 0, 0) /\
  potential_flow (fun q => to3 (doublet_line_u (N := XN) (Fin 3) (Fin 2) PInf (xv q))) (1, 1, 1).
Proof.
  split; [|split].
  - apply C121_ring; [lra|..]; unfold px, py, pz; cbn [fst snd]; replace (1 ^ 2 + 0 ^ 2) with 1 by ring; rewrite sqrt_1; [lra|]. right. rewrite Rabs_R1. lra.
  - apply C121_doublet. unfold length3, inner, sub3, px, py, pz. cbn [fst snd]. replace ((3 - 0) * (3 - 0) + (0 - 0) * (0 - 0) + (0 - 0) * (0 - 0)) with (3 * 3) by ring. rewrite sqrt_square by lra. lra.
  - apply C121_doublet_line. left. unfold py. cbn [fst snd]. rewrite Rabs_R1. lra.
Qed.
