(** * C98, C99: the quadrature routines of VortexDoublet.py converge to the closed forms *)
From Coquelicot Require Import Coquelicot.
From Coq Require Import ZArith List Bool Arith Lia String Reals Lra Psatz.
From Verif Require Import Num NumR NumX M_Doublet L_List L_X L_Angles L_Built Spec SpecBS L_Calc L_Ell P_Line P_Doublet P_Skewed P_Converge.
Import ListNotations.
Local Open Scope R_scope.
Local Notation len := List.length.

(** ** Truncation and quadrature of an improper integral *)
Lemma half_trunc (f : R -> R) (I : R) : is_RInt_gen f (at_point 0) (Rbar_locally p_infty) I ->
  forall eps, 0 < eps -> exists Z, 0 < Z /\ forall z, Z <= z -> Rabs (RInt f 0 z - I) <= eps.
Proof.
  intros H eps He. specialize (H (ball I (mkposreal eps He)) (locally_ball I _)). destruct H as [Q S HQ HS H].
  destruct HS as [M HM]. exists (Rmax 1 (M + 1)). pose proof (Rmax_l 1 (M + 1)). pose proof (Rmax_r 1 (M + 1)). split; [lra|]. intros z Hz.
  destruct (H 0 z HQ (HM z ltac:(lra))) as (y & Iy & By). cbn [fst snd] in Iy. rewrite (RInt_val _ _ _ _ Iy).
  unfold ball in By; cbn in By; unfold AbsRing_ball, abs, minus, plus, opp in By; cbn in By. apply Rlt_le. exact By.
Qed.
Lemma abs_ext_cont (f : R -> R) : (forall s, 0 <= s -> continuous f s) -> forall x, continuous (fun s => f (Rabs s)) x.
Proof.
  intros H x. apply (continuous_comp Rabs f); [apply continuous_Rabs|apply H, Rabs_pos].
Qed.
Lemma trapezoid_nonneg_ext (f g : R -> R) z n : 0 <= z -> (forall s, 0 <= s -> f s = g s) -> trapezoid f 0 z n = trapezoid g 0 z n.
Proof.
  intros Hz E. unfold trapezoid. f_equal. apply map_ext. intros i.
  assert (H : 0 <= z / INR (n - 1)).
  { destruct (n - 1)%nat as [|k]; [cbn; unfold Rdiv; rewrite Rinv_0; lra|]. apply Rmult_le_pos; auto. apply Rlt_le, Rinv_0_lt_compat, lt_0_INR. lia. }
  rewrite !E; auto; rewrite Rplus_0_l; apply Rmult_le_pos; auto; apply pos_INR.
Qed.
Lemma half_trap (f : R -> R) (I : R) : (forall s, 0 <= s -> continuous f s) -> is_RInt_gen f (at_point 0) (Rbar_locally p_infty) I ->
  forall eps, 0 < eps -> exists Z, 0 < Z /\ forall z, Z <= z -> exists M, forall n, (M <= n)%nat -> Rabs (trapezoid f 0 z n - I) <= eps.
Proof.
  intros HC HI eps He. destruct (half_trunc f I HI (eps / 2) ltac:(lra)) as (Z & HZ & HT). exists Z. split; auto. intros z Hz.
  destruct (trapezoid_converges (fun s => f (Rabs s)) 0 z z ltac:(lra) (abs_ext_cont f HC) (eps / 2) ltac:(lra)) as [M HM].
  exists M. intros n Hn. specialize (HM n 0 Hn ltac:(lra) ltac:(lra)). rewrite Rplus_0_l in HM.
  rewrite (trapezoid_nonneg_ext (fun s => f (Rabs s)) f z n ltac:(lra)) in HM by (intros s Hs; cbv beta; rewrite Rabs_right by lra; reflexivity).
  assert (E : RInt (fun s => f (Rabs s)) 0 z = RInt f 0 z).
  { apply (@RInt_ext R_CompleteNormedModule). intros s Hs. rewrite Rmin_left, Rmax_right in Hs by lra. rewrite Rabs_right by lra. reflexivity. }
  rewrite E in HM. specialize (HT z Hz). 
  replace (trapezoid f 0 z n - I) with (- (RInt f 0 z - trapezoid f 0 z n) + (RInt f 0 z - I)) by ring.
  eapply Rle_trans; [apply Rabs_triang|]. rewrite Rabs_Ropp. lra.
Qed.
(** the rectangle sum with both end points *)
Definition rect (f : R -> R) (z : R) (n : nat) : R := lsum (map (fun i => z / INR (n - 1) * f (INR i * (z / INR (n - 1)))) (seq 0 n)).
Lemma rect_aux (g : nat -> R) k a : lsum (map g (seq a (S k))) = lsum (map (fun i => (g i + g (S i)) / 2) (seq a k)) + (g a + g (a + k)%nat) / 2.
Proof.
  revert a. induction k as [|k IH]; intros a.
  - cbn [seq map]. unfold lsum. cbn. rewrite Nat.add_0_r. lra.
  - change (seq a (S (S k))) with (a :: seq (S a) (S k)). change (seq a (S k)) with (a :: seq (S a) k). cbn [map]. unfold lsum in *. cbn [fold_right]. rewrite IH.
    replace (S a + k)%nat with (a + S k)%nat by lia. lra.
Qed.
Lemma rect_trap f z n : (2 <= n)%nat -> rect f z n = trapezoid f 0 z n + z / INR (n - 1) * ((f 0 + f z) / 2).
Proof.
  intros Hn. unfold rect. assert (E : seq 0 n = seq 0 (S (n - 1))) by (f_equal; lia). rewrite E, rect_aux. unfold trapezoid, lsum. f_equal.
  - f_equal. apply map_ext. intros i. rewrite !Rplus_0_l. lra.
  - assert (INR (n - 1) <> 0) by (apply not_0_INR; lia). change (0 + (n - 1))%nat with (n - 1)%nat. change (INR 0) with 0. rewrite Rmult_0_l. replace (INR (n - 1) * (z / INR (n - 1))) with z by (field; auto). field. auto.
Qed.
Lemma half_rect (f : R -> R) (I : R) : (forall s, 0 <= s -> continuous f s) -> is_RInt_gen f (at_point 0) (Rbar_locally p_infty) I ->
  forall eps, 0 < eps -> exists Z, 0 < Z /\ forall z, Z <= z -> exists M, forall n, (M <= n)%nat -> Rabs (rect f z n - I) <= eps.
Proof.
  intros HC HI eps He. destruct (half_trap f I HC HI (eps / 2) ltac:(lra)) as (Z & HZ & HT). exists Z. split; auto. intros z Hz. destruct (HT z Hz) as [M HM].
  set (c := z * Rabs ((f 0 + f z) / 2)). assert (c0 : 0 <= c) by (apply Rmult_le_pos; [lra|apply Rabs_pos]).
  assert (HK0 : exists K : nat, c / (eps / 2) < INR K).
  { destruct (archimed (c / (eps / 2))) as [A _]. exists (Z.to_nat (up (c / (eps / 2)))). rewrite INR_IZR_INZ, Z2Nat.id; [lra|]. apply le_IZR. assert (0 <= c / (eps / 2)) by (apply Rmult_le_pos; [auto|apply Rlt_le, Rinv_0_lt_compat; lra]). lra. }
  destruct HK0 as [K HK]. exists (Nat.max M (S (S K))). intros n Hn.
  rewrite rect_trap by lia. specialize (HM n ltac:(lia)).
  assert (HI1 : INR K < INR (n - 1)) by (apply lt_INR; lia). pose proof (pos_INR K).
  replace (trapezoid f 0 z n + z / INR (n - 1) * ((f 0 + f z) / 2) - I) with ((trapezoid f 0 z n - I) + z / INR (n - 1) * ((f 0 + f z) / 2)) by ring.
  eapply Rle_trans; [apply Rabs_triang|]. assert (Rabs (z / INR (n - 1) * ((f 0 + f z) / 2)) <= eps / 2); [|lra].
  rewrite Rabs_mult. rewrite Rabs_right by (apply Rle_ge, Rlt_le, Rdiv_lt_0_compat; lra).
  replace (z / INR (n - 1) * Rabs ((f 0 + f z) / 2)) with (c / INR (n - 1)) by (unfold c; field; lra).
  apply Rmult_le_reg_r with (INR (n - 1)); [lra|]. unfold Rdiv at 1. rewrite Rmult_assoc, Rinv_l, Rmult_1_r by lra.
  apply Rmult_lt_compat_r with (r := eps / 2) in HK; [|lra]. unfold Rdiv at 1 in HK. rewrite Rmult_assoc, Rinv_l, Rmult_1_r in HK by lra. nra.
Qed.

(** ** C98: I30_num ... I52_num *)
Lemma num_quad_X (g : X -> X) (f : R -> R) z n : (2 <= n)%nat -> 0 <= z -> (forall s, 0 <= s -> g (Fin s) = Fin (f s)) ->
  num_quad (N := XN) g (Fin z) n = Fin (trapezoid f 0 z n).
Proof.
  intros Hn Hz E. unfold num_quad. change (nZ XN 0) with (Fin 0). rewrite linspace_X.
  rewrite <- (trapezoid_trapz f 0 z n Hn). cbv zeta.
  assert (E0 : map (fun t => 0 + t) (linspace (N := RN) 0 z n) = linspace (N := RN) 0 z n) by (etransitivity; [apply map_ext; intros; apply Rplus_0_l|apply map_id]).
  rewrite E0. rewrite <- trapz_X. f_equal. rewrite !map_map. apply map_ext_in. intros s Hs. apply E.
  rewrite linspace_seq in Hs by auto. apply in_map_iff in Hs. destruct Hs as (i & <- & _). rewrite Rplus_0_l, Rminus_0_r.
  apply Rmult_le_pos; [apply pos_INR|]. apply Rmult_le_pos; auto. apply Rlt_le, Rinv_0_lt_compat, lt_0_INR. lia.
Qed.
Lemma Rpw_5half q : 0 < q -> Rpw q (5/2) = sqrt q ^ 5.
Proof.
  intros H. assert (S : 0 < sqrt q) by (apply sqrt_lt_R0; auto). rewrite Rpw_pos by auto. rewrite <- (sqrt_sqrt q) at 1 by lra.
  replace (sqrt q * sqrt q) with (Rpower (sqrt q) 2) by (replace 2 with (INR 2) by (cbn; ring); rewrite Rpower_pow by auto; ring).
  rewrite Rpower_mult. replace (2 * (5/2)) with (INR 5) by (cbn; field). apply Rpower_pow. auto.
Qed.

Section Line.
  Variables x y z m : R.
  Hypothesis OFF : ~ (x = m * z /\ y = 0 /\ 0 <= z).
  Let a := sqrt (x * x + y * y + z * z).
  Let b := m * x + z.
  Let c := sqrt (m * m + 1).
  Lemma abc : 0 < a /\ 0 < c /\ b < a * c.
  Proof.
    pose proof (off_line m x y z OFF) as [A B]. destruct (c_pos m) as [C _]. unfold a, b, c.
    unfold length3, inner, px, py, pz in A, B. cbn [fst snd] in A, B. auto.
  Qed.
  Lemma qq_r2 s : qq a b c s = (x - m * s) * (x - m * s) + y * y + (z - s) * (z - s).
  Proof.
    unfold qq. replace (a ^ 2) with (a * a) by ring. replace (c ^ 2) with (c * c) by ring. unfold a, c. pose proof (Rsq_pos x). pose proof (Rsq_pos y). pose proof (Rsq_pos z). pose proof (Rsq_pos m).
    rewrite !sqrt_sqrt by lra. unfold b. ring.
  Qed.
  Lemma qq_line_pos s : 0 <= s -> 0 < qq a b c s.
  Proof.
    intros Hs. rewrite qq_r2. pose proof (Rsq_pos (x - m * s)) as P1. pose proof (Rsq_pos y) as P2. pose proof (Rsq_pos (z - s)) as P3.
    destruct (Req_dec y 0) as [Y|Y]; [|pose proof (Rsq_lt y Y); lra]. destruct (Req_dec z s) as [E|E]; [|pose proof (Rsq_lt (z - s) ltac:(lra)); lra].
    destruct (Req_dec x (m * s)) as [E2|E2]; [|pose proof (Rsq_lt (x - m * s) ltac:(lra)); lra]. exfalso. apply OFF. subst z. auto.
  Qed.
  Lemma r2_X s : num_r2 (N := XN) (Fin x) (Fin y) (Fin z) (Fin m) (Fin s) = Fin (qq a b c s).
  Proof. rewrite qq_r2. unfold num_r2. xn. reflexivity. Qed.
  Lemma I30_num_X zmax n : (2 <= n)%nat -> 0 <= zmax -> I30_num (N := XN) (Fin x) (Fin y) (Fin z) (Fin m) n (Fin zmax) = Fin (trapezoid (int30 a b c) 0 zmax n).
  Proof.
    intros Hn Hz. unfold I30_num. apply num_quad_X; auto. intros s Hs. pose proof (qq_line_pos s Hs) as Q. rewrite r2_X, p32_X by auto.
    assert (S : 0 < sqrt (qq a b c s)) by (apply sqrt_lt_R0; auto). xn. assert (0 < qq a b c s * sqrt (qq a b c s)) by (apply Rmult_lt_0_compat; auto).
    rewrite xdiv_fin by lra. unfold int30. f_equal. f_equal. rewrite <- (sqrt_sqrt (qq a b c s)) at 1 by lra. ring.
  Qed.
  Lemma I5_num_X (k : R -> R) (kx : X -> X) zmax n : (2 <= n)%nat -> 0 <= zmax -> (forall s, kx (Fin s) = Fin (k s)) ->
    num_quad (N := XN) (fun zp => ndiv XN (kx zp) (npow XN (num_r2 (N := XN) (Fin x) (Fin y) (Fin z) (Fin m) zp) (nQ XN 5 2))) (Fin zmax) n
    = Fin (trapezoid (fun s => k s / sqrt (qq a b c s) ^ 5) 0 zmax n).
  Proof.
    intros Hn Hz Hk. apply num_quad_X; auto. intros s Hs. pose proof (qq_line_pos s Hs) as Q. rewrite r2_X, Hk. xn.
    rewrite xpow_fin by auto. rewrite Rpw_5half by auto. rewrite xdiv_fin; [reflexivity|]. apply pow_nonzero, Rgt_not_eq, sqrt_lt_R0. auto.
  Qed.
End Line.

(** C98: as zmax and then nQuad grow, the quadratures tend to what the closed forms I30, tI50 (= 3 I50), ... return *)
Theorem C98_quadratures_converge : forall x y z m, ~ (x = m * z /\ y = 0 /\ 0 <= z) ->
  let a := sqrt (x * x + y * y + z * z) in let b := m * x + z in let c := sqrt (m * m + 1) in
  exists v30 v50 v51 v52,
    I30 (N := XN) (Fin a) (Fin b) (Fin c) = Fin v30 /\ tI50 (N := XN) (Fin a) (Fin b) (Fin c) = Fin v50 /\
    tI51 (N := XN) (Fin a) (Fin b) (Fin c) = Fin v51 /\ tI52 (N := XN) (Fin a) (Fin b) (Fin c) = Fin v52 /\
    forall eps, 0 < eps -> exists Z, forall zmax, Z <= zmax -> exists M, forall n, (M <= n)%nat ->
      exists w30 w50 w51 w52,
        I30_num (N := XN) (Fin x) (Fin y) (Fin z) (Fin m) n (Fin zmax) = Fin w30 /\ Rabs (w30 - v30) <= eps /\
        I50_num (N := XN) (Fin x) (Fin y) (Fin z) (Fin m) n (Fin zmax) = Fin w50 /\ Rabs (3 * w50 - v50) <= eps /\
        I51_num (N := XN) (Fin x) (Fin y) (Fin z) (Fin m) n (Fin zmax) = Fin w51 /\ Rabs (3 * w51 - v51) <= eps /\
        I52_num (N := XN) (Fin x) (Fin y) (Fin z) (Fin m) n (Fin zmax) = Fin w52 /\ Rabs (3 * w52 - v52) <= eps.
Proof.
  intros x y z m OFF. cbv zeta. destruct (abc x y z m OFF) as (Ha & Hc & Hb). pose proof (qq_line_pos x y z m OFF) as QP.
  set (a := sqrt (x * x + y * y + z * z)) in *. set (b := m * x + z) in *. set (c := sqrt (m * m + 1)) in *.
  destruct (C63_semi_infinite_integrals a b c Ha Hc Hb) as (v0 & v1 & v2 & v3 & E0 & I0 & E1 & I1 & E2 & I2 & E3 & I3).
  exists v0, v1, v2, v3. do 4 (split; [assumption|]). intros eps He.
  destruct (half_trap _ v0 (fun s Hs => c30 a b c s (QP s Hs)) I0 eps He) as (Z0 & P0 & H0).
  destruct (half_trap _ v1 (fun s Hs => c50 a b c s (QP s Hs)) I1 eps He) as (Z1 & P1 & H1).
  destruct (half_trap _ v2 (fun s Hs => c51 a b c s (QP s Hs)) I2 eps He) as (Z2 & P2 & H2).
  destruct (half_trap _ v3 (fun s Hs => c52 a b c s (QP s Hs)) I3 eps He) as (Z3 & P3 & H3).
  exists (Rmax (Rmax Z0 Z1) (Rmax Z2 Z3)). intros zmax Hz.
  pose proof (Rmax_l (Rmax Z0 Z1) (Rmax Z2 Z3)). pose proof (Rmax_r (Rmax Z0 Z1) (Rmax Z2 Z3)). pose proof (Rmax_l Z0 Z1). pose proof (Rmax_r Z0 Z1). pose proof (Rmax_l Z2 Z3). pose proof (Rmax_r Z2 Z3).
  destruct (H0 zmax ltac:(lra)) as [M0 K0]. destruct (H1 zmax ltac:(lra)) as [M1 K1]. destruct (H2 zmax ltac:(lra)) as [M2 K2]. destruct (H3 zmax ltac:(lra)) as [M3 K3].
  exists (2 + M0 + M1 + M2 + M3)%nat. intros n Hn.
  exists (trapezoid (int30 a b c) 0 zmax n), (trapezoid (fun s => 1 / sqrt (qq a b c s) ^ 5) 0 zmax n), (trapezoid (fun s => s / sqrt (qq a b c s) ^ 5) 0 zmax n), (trapezoid (fun s => s ^ 2 / sqrt (qq a b c s) ^ 5) 0 zmax n).
  assert (hz : 0 <= zmax) by lra. assert (hn : (2 <= n)%nat) by lia.
  split; [apply (I30_num_X x y z m OFF); auto|]. split; [apply K0; lia|].
  split; [apply (I5_num_X x y z m OFF (fun _ => 1) (fun _ => Fin 1)); auto|]. split; [rewrite <- trapezoid_scal; apply K1; lia|].
  split; [apply (I5_num_X x y z m OFF (fun s => s) (fun s => s)); auto|]. split; [rewrite <- trapezoid_scal; apply K2; lia|].
  split; [apply (I5_num_X x y z m OFF (fun s => s ^ 2) (fun s => sq (N := XN) s)); auto; intros s; xn; f_equal; ring|]. rewrite <- trapezoid_scal; apply K3; lia.
Qed.

(** ** C99: the sums of point doublets *)
Lemma pxE a b c : px (a, b, c) = a. Proof. reflexivity. Qed.
Lemma pyE a b c : py (a, b, c) = b. Proof. reflexivity. Qed.
Lemma pzE a b c : pz (a, b, c) = c. Proof. reflexivity. Qed.
Definition sum3 (F : R -> R3) (l : list R) : R3 := fold_right (fun s u => add3 (F s) u) zero l.
Lemma sum3_comp F l : px (sum3 F l) = lsum (map (fun s => px (F s)) l) /\ py (sum3 F l) = lsum (map (fun s => py (F s)) l) /\ pz (sum3 F l) = lsum (map (fun s => pz (F s)) l).
Proof.
  induction l as [|s l (I1 & I2 & I3)]; [repeat split; reflexivity|]. unfold lsum in *. cbn [sum3 fold_right map] in *.
  rewrite <- I1, <- I2, <- I3. repeat split; reflexivity.
Qed.
Lemma fold3 (d : X -> X * X * X) (F : R -> R3) l acc : (forall s, In s l -> d (Fin s) = xv (F s)) ->
  fold_left (fun u z0 => let '(u1, u2, u3) := u in let '(d1, d2, d3) := d z0 in (nadd XN u1 d1, nadd XN u2 d2, nadd XN u3 d3)) (map Fin l) (xv acc)
  = xv (add3 acc (sum3 F l)).
Proof.
  revert acc. induction l as [|s l IH]; intros acc H.
  - destruct acc as [[a1 a2] a3]. unfold sum3, zero, add3, xv, px, py, pz. cbn. rewrite !Rplus_0_r. reflexivity.
  - cbn [map fold_left]. rewrite (H s) by (left; reflexivity).
    change (let '(u1, u2, u3) := xv acc in let '(d1, d2, d3) := xv (F s) in (nadd XN u1 d1, nadd XN u2 d2, nadd XN u3 d3)) with (xv (add3 acc (F s))).
    rewrite IH by (intros; apply H; right; auto). apply f_equal. cbn [sum3 fold_right]. fold (sum3 F l). unfold add3, px, py, pz. cbn [fst snd]. apply tri; ring.
Qed.
Definition far_from_line (m : R) (p : R3) : Prop := forall s, 0 <= s -> 1/100000000 <= length3 (sub3 p (m * s, 0, s)) ^ 3.
Lemma pd_scal h D y p : point_doublet (0, 0, D * h) y p = scal3 h (point_doublet (0, 0, D) y p).
Proof. unfold point_doublet. cbv zeta. destruct p as [[p1 p2] p3], y as [[y1 y2] y3]. unfold scal3, sub3, inner, px, py, pz. cbn [fst snd]. apply tri; unfold Rdiv; ring. Qed.
Lemma nodes_nonneg z n s : (2 <= n)%nat -> 0 <= z -> In s (linspace (N := RN) 0 z n) -> 0 <= s.
Proof.
  intros Hn Hz Hs. rewrite linspace_seq in Hs by auto. apply in_map_iff in Hs. destruct Hs as (i & <- & _). rewrite Rplus_0_l, Rminus_0_r.
  apply Rmult_le_pos; [apply pos_INR|]. apply Rmult_le_pos; auto. apply Rlt_le, Rinv_0_lt_compat, lt_0_INR. lia.
Qed.
Lemma linspace_two z n : (2 <= n)%nat -> exists l, linspace (N := RN) 0 z n = 0 :: z / INR (n - 1) :: l.
Proof.
  intros Hn. rewrite linspace_seq by auto. destruct n as [|[|n]]; try lia. cbn [seq map]. eexists. replace (S (S n) - 1)%nat with (S n) by lia.
  apply f_equal2; [change (INR 0) with 0; ring|]. apply f_equal2; [|reflexivity]. change (INR 1) with 1. rewrite Rminus_0_r. ring.
Qed.
Lemma dl_num_X D m p zmax n : (2 <= n)%nat -> 0 <= zmax -> far_from_line m p ->
  exists u, doublet_line_u_num (N := XN) (Fin D) (Fin m) (Fin zmax) n (xv p) = Ok (xv u) /\
    px u = rect (fun s => px (point_doublet (0, 0, D) (m * s, 0, s) p)) zmax n /\
    py u = rect (fun s => py (point_doublet (0, 0, D) (m * s, 0, s) p)) zmax n /\
    pz u = rect (fun s => pz (point_doublet (0, 0, D) (m * s, 0, s) p)) zmax n.
Proof.
  intros Hn Hz Far. unfold doublet_line_u_num. change (nZ XN 0) with (Fin 0). rewrite linspace_X. destruct (linspace_two zmax n Hn) as [l El].
  pose proof (nodes_nonneg zmax n) as NN. rewrite El. cbn [map]. set (h := zmax / INR (n - 1)) in *.
  change (nmul XN (Fin D) (nsub XN (Fin h) (Fin 0))) with (Fin (D * (h - 0)) : X). rewrite Rminus_0_r.
  change (Fin 0 :: Fin h :: map Fin l) with (map Fin (0 :: h :: l)). rewrite <- El.
  eexists. split.
  - apply f_equal. apply (fold3 (fun z0 => doublet_u (N := XN) (Fin 0, Fin 0, Fin (D * h)) (nmul XN (Fin m) z0, Fin 0, z0) (xv p)) (fun s => scal3 h (point_doublet (0, 0, D) (m * s, 0, s) p)) _ zero).
    intros s Hs. assert (0 <= s) by (apply (NN s); auto).
    change (doublet_u (N := XN) (xv (0, 0, D * h)) (xv (m * s, 0, s)) (xv p) = xv (scal3 h (point_doublet (0, 0, D) (m * s, 0, s) p))).
    rewrite doublet_X. cbv zeta. rewrite (proj2 (Rltb_false _ _)) by (apply Far; auto). rewrite pd_scal. reflexivity.
  - destruct (sum3_comp (fun s => scal3 h (point_doublet (0, 0, D) (m * s, 0, s) p)) (linspace (N := RN) 0 zmax n)) as (S1 & S2 & S3).
    unfold add3. change (px zero) with 0. change (py zero) with 0. change (pz zero) with 0. rewrite !Rplus_0_l. 
    rewrite pxE, pyE, pzE. rewrite S1, S2, S3. rewrite linspace_seq by auto. rewrite !map_map. unfold rect. rewrite Rminus_0_r. fold h.
    repeat split; apply f_equal; apply map_ext; intros i; rewrite Rplus_0_l; unfold scal3, px, py, pz; reflexivity.
Qed.

Lemma far_not_near m p : far_from_line m p -> ~ near_line m None p.
Proof.
  intros Far (H1 & H2 & H3 & _). specialize (Far (pz p) H3). destruct p as [[x y] z]. rewrite pxE, pzE in H2. rewrite pyE in H1. rewrite pzE in H3, Far.
  set (L := length3 (sub3 (x, y, z) (m * z, 0, z))) in *.
  assert (L0 : 0 <= L) by apply length3_pos. assert (L2 : L * L = (x - m * z) * (x - m * z) + y * y).
  { unfold L. rewrite length3_sq. unfold inner, sub3, px, py, pz. cbn [fst snd]. ring. }
  apply Rabs_def2 in H1. apply Rabs_def2 in H2.
  assert (A1 : y * y <= 1/100000000 * (1/100000000)) by nra. assert (A2 : (x - m * z) * (x - m * z) <= 1/100000000 * (1/100000000)) by nra.
  assert (L1 : L < 1/1000) by nra. assert (L * L * L < 1/1000 * (1/1000) * (1/1000)). { assert (L * L <= 1/1000 * (1/1000)) by nra. nra. }
  replace (L ^ 3) with (L * L * L) in Far by ring. nra.
Qed.
Lemma comb_cont (f0 f1 f2 f3 : R -> R) (k0 k1 k2 k3 s : R) : continuous f0 s -> continuous f1 s -> continuous f2 s -> continuous f3 s ->
  continuous (fun t : R => k0 * f0 t + k1 * f1 t + k2 * f2 t + k3 * f3 t) s.
Proof.
  intros H0 H1 H2 H3.
  pose proof (continuous_scal_r k0 f0 s H0) as A0. pose proof (continuous_scal_r k1 f1 s H1) as A1. pose proof (continuous_scal_r k2 f2 s H2) as A2. pose proof (continuous_scal_r k3 f3 s H3) as A3.
  exact (continuous_plus _ _ s (continuous_plus _ _ s (continuous_plus _ _ s A0 A1) A2) A3).
Qed.
Lemma pd_cont D m p : ~ near_line m None p -> each3 (fun c => forall s, 0 <= s -> continuous (fun s => c (point_doublet (0, 0, D) (m * s, 0, s) p)) s).
Proof.
  intros NL. destruct p as [[x y] z]. pose proof (not_near_off _ _ _ _ NL) as OFF. pose proof (qq_line_pos x y z m OFF) as QP.
  assert (K : forall (c : R3 -> R) (k0 k1 k2 k3 : R) s, 0 <= s ->
    (forall s, 0 < qq (sqrt (x * x + y * y + z * z)) (m * x + z) (sqrt (m * m + 1)) s -> c (point_doublet (0, 0, D) (m * s, 0, s) (x, y, z)) =
       k0 * int30 (sqrt (x * x + y * y + z * z)) (m * x + z) (sqrt (m * m + 1)) s + k1 * int50 (sqrt (x * x + y * y + z * z)) (m * x + z) (sqrt (m * m + 1)) s
       + k2 * int51 (sqrt (x * x + y * y + z * z)) (m * x + z) (sqrt (m * m + 1)) s + k3 * int52 (sqrt (x * x + y * y + z * z)) (m * x + z) (sqrt (m * m + 1)) s) ->
    continuous (fun s => c (point_doublet (0, 0, D) (m * s, 0, s) (x, y, z))) s).
  { intros c k0 k1 k2 k3 s Hs HE. pose proof (QP s Hs) as Q. 
    assert (LQ : locally s (fun t => 0 < qq (sqrt (x * x + y * y + z * z)) (m * x + z) (sqrt (m * m + 1)) t)).
    { assert (C : continuous (qq (sqrt (x * x + y * y + z * z)) (m * x + z) (sqrt (m * m + 1))) s) by (unfold qq; apply (@ex_derive_continuous R_AbsRing R_NormedModule); auto_derive; auto).
      apply C. apply (open_gt 0). exact Q. }
    eapply continuous_ext_loc; [|].
    - eapply filter_imp; [|exact LQ]. intros t Ht. symmetry. apply HE. exact Ht.
    - apply comb_cont; [apply c30|apply c50|apply c51|apply c52]; auto. }
  pose proof (pd_comp D m x y z) as PC. unfold length3, inner in PC. rewrite pxE, pyE, pzE in PC.
  split; [|split].
  - intros s Hs. apply (K px 0 (D / (4 * PI) * (x * z)) (- (D / (4 * PI) * (m * z + x))) (D / (4 * PI) * m) s Hs). intros t Ht. rewrite PC by exact Ht. rewrite pxE. ring.
  - intros s Hs. apply (K py 0 (D / (4 * PI) * (y * z)) (- (D / (4 * PI) * y)) 0 s Hs). intros t Ht. rewrite PC by exact Ht. rewrite pyE. ring.
  - intros s Hs. apply (K pz (- (D / (4 * PI))) (D / (4 * PI) * (z * z)) (- (D / (4 * PI) * (2 * z))) (D / (4 * PI)) s Hs). intros t Ht. rewrite PC by exact Ht. rewrite pzE. ring.
Qed.
(** C99: the sum of nQuad point doublets up to zmax tends to the closed-form line *)
Theorem C99_doublet_sum_converges : forall D m p, far_from_line m p ->
  exists u, doublet_line_u (N := XN) (Fin D) (Fin m) PInf (xv p) = xv u /\
    forall eps, 0 < eps -> exists Z, forall zmax, Z <= zmax -> exists M, forall n, (M <= n)%nat ->
      exists v, doublet_line_u_num (N := XN) (Fin D) (Fin m) (Fin zmax) n (xv p) = Ok (xv v) /\
        Rabs (px v - px u) <= eps /\ Rabs (py v - py u) <= eps /\ Rabs (pz v - pz u) <= eps.
Proof.
  intros D m p Far. pose proof (far_not_near m p Far) as NL. destruct (C64_line_is_integral_of_doublets D m p NL) as (u & Eu & I1 & I2 & I3).
  exists u. split; [exact Eu|]. intros eps He. destruct (pd_cont D m p NL) as (C1 & C2 & C3).
  destruct (half_rect _ _ C1 I1 eps He) as (Z1 & P1 & H1). destruct (half_rect _ _ C2 I2 eps He) as (Z2 & P2 & H2). destruct (half_rect _ _ C3 I3 eps He) as (Z3 & P3 & H3).
  exists (Rmax Z1 (Rmax Z2 Z3)). intros zmax Hz. pose proof (Rmax_l Z1 (Rmax Z2 Z3)). pose proof (Rmax_r Z1 (Rmax Z2 Z3)). pose proof (Rmax_l Z2 Z3). pose proof (Rmax_r Z2 Z3).
  destruct (H1 zmax ltac:(lra)) as [M1 K1]. destruct (H2 zmax ltac:(lra)) as [M2 K2]. destruct (H3 zmax ltac:(lra)) as [M3 K3].
  exists (2 + M1 + M2 + M3)%nat. intros n Hn. destruct (dl_num_X D m p zmax n ltac:(lia) ltac:(lra) Far) as (v & Ev & V1 & V2 & V3).
  exists v. split; [exact Ev|]. rewrite V1, V2, V3. split; [apply K1; lia|]. split; [apply K2; lia|apply K3; lia].
Qed.
(** the polar routine, on an array of points *)
Lemma map2_keep {A B} (acc : list A) (ps : list B) : len acc = len ps -> map2 (fun a _ => a) acc ps = acc.
Proof. revert ps. induction acc as [|a acc IHa]; intros [|p ps] HL; try discriminate; [reflexivity|]. cbn [map2]. f_equal. apply IHa. injection HL. auto. Qed.
Lemma map2_fuse {A B C} (f : A -> C -> A) (g : A -> B -> A) (h : B -> C) (acc : list A) (ps : list B) :
  map2 g (map2 f acc (map h ps)) ps = map2 (fun a p => g (f a (h p)) p) acc ps.
Proof. revert ps. induction acc as [|a acc IHa]; intros [|p ps]; try reflexivity. cbn [map map2]. f_equal. apply IHa. Qed.
Lemma map2_len {A B C} (f : A -> C -> A) (h : B -> C) (acc : list A) (ps : list B) : len acc = len ps -> len (map2 f acc (map h ps)) = len ps.
Proof. revert ps. induction acc as [|a acc IHa]; intros [|p ps] HL; try discriminate; [reflexivity|]. cbn [map map2 List.length]. f_equal. apply IHa. injection HL. auto. Qed.
Lemma polar_fold (D : X) (zs : list X) (ps : list (X * X)) (acc : list (X * X)) : any_neg (N := XN) ps = false -> len acc = len ps ->
  fold_left (fun acc z0 => bind acc (fun u => bind (doublet_u_polar (N := XN) D z0 ps) (fun du => Ok (map2 (fun a d : X * X => (nadd XN (fst a) (fst d), nadd XN (snd a) (snd d))) u du)))) zs (Ok acc)
  = Ok (map2 (fun a p => fold_left (fun a z0 => (nadd XN (fst a) (fst (doublet_u_polar_pt (N := XN) D z0 p)), nadd XN (snd a) (snd (doublet_u_polar_pt (N := XN) D z0 p)))) zs a) acc ps).
Proof.
  intros HN. revert acc. induction zs as [|z zs IH]; intros acc HL; cbn [fold_left].
  - symmetry. apply (f_equal (@Ok (list (X * X)))). apply (map2_keep acc ps HL).
  - unfold doublet_u_polar at 2. rewrite HN. cbn [bind]. etransitivity; [apply IH|].
    + apply (map2_len _ (doublet_u_polar_pt (N := XN) D z)). exact HL.
    + apply (f_equal (@Ok (list (X * X)))). apply (map2_fuse (fun a d : X * X => (nadd XN (fst a) (fst d), nadd XN (snd a) (snd d)))
        (fun a p : X * X => fold_left (fun (a : X * X) (z0 : X) => (nadd XN (fst a) (fst (doublet_u_polar_pt (N := XN) D z0 p)), nadd XN (snd a) (snd (doublet_u_polar_pt (N := XN) D z0 p)))) zs a)
        (doublet_u_polar_pt (N := XN) D z)).
Qed.
Lemma polar_fold_pt D r z l (a : X * X) u : 0 <= r -> a = (Fin (fst u), Fin (snd u)) -> (forall s, In s l -> 1/100000000 <= length3 (sub3 (r, 0, z) (0, 0, s)) ^ 3) ->
  fold_left (fun a z0 => (nadd XN (fst a) (fst (doublet_u_polar_pt (N := XN) (Fin D) z0 (Fin r, Fin z))), nadd XN (snd a) (snd (doublet_u_polar_pt (N := XN) (Fin D) z0 (Fin r, Fin z))))) (map Fin l) a
  = (Fin (fst u + lsum (map (fun s => px (point_doublet (0, 0, D) (0, 0, s) (r, 0, z))) l)), Fin (snd u + lsum (map (fun s => pz (point_doublet (0, 0, D) (0, 0, s) (r, 0, z))) l))).
Proof.
  intros Hr. revert a u. induction l as [|s l IH]; intros a u -> HF.
  - cbn [map fold_left]. unfold lsum. cbn [fold_right]. rewrite !Rplus_0_r. reflexivity.
  - cbn [map fold_left fst snd]. 
    destruct (C65_polar_agrees_with_cartesian D s r z 0 Hr) as (ur & uz & E1 & E2). rewrite cos_0, sin_0, !Rmult_1_r, !Rmult_0_r in E2.
    rewrite doublet_X in E2. cbv zeta in E2. rewrite (proj2 (Rltb_false _ _)) in E2 by (apply HF; left; reflexivity). apply xv_inj in E2.
    unfold doublet_u_polar in E1. destruct (any_neg (N := XN) [(Fin r, Fin z)]); [discriminate|]. cbn [map] in E1. apply Ok_inj in E1. apply (f_equal (fun l : list (X * X) => hd (Fin 0, Fin 0) l)) in E1. cbn [hd] in E1.
    rewrite E1. cbn [fst snd]. rewrite (IH _ (fst u + ur, snd u + uz)); [|reflexivity|intros; apply HF; right; auto]. cbn [fst snd].
    unfold lsum. cbn [fold_right]. rewrite E2, pxE, pzE. f_equal; f_equal; ring.
Qed.
Lemma map_zero_len (ps : list (X * X)) : len (map (fun _ : X * X => (Fin 0, Fin 0)) ps) = len ps.
Proof. apply map_length. Qed.
Lemma any_neg_false (ps : list (R * R)) : Forall (fun p => 0 <= fst p) ps -> any_neg (N := XN) (map (fun p => (Fin (fst p), Fin (snd p))) ps) = false.
Proof.
  intros H. unfold any_neg. induction H as [|p ps Hp H IH]; [reflexivity|]. cbn [map existsb fst]. rewrite IH, orb_false_r.
  change (nlt XN (Fin (fst p)) (nZ XN 0)) with (Rltb (fst p) 0). apply Rltb_false. lra.
Qed.
Definition polar_regular (r z : R) : Prop := 1/50000000 <= r /\ (1/100000000 <= Rabs z \/ z = 0) \/ r = 0 /\ z < - (1/100000000).
Theorem C99_polar_sum_converges : forall D (ps : list (R * R)) i r z, Forall (fun p => 0 <= fst p) ps -> nth_error ps i = Some (r, z) ->
  far_from_line 0 (r, 0, z) -> polar_regular r z ->
  let arr := map (fun p => (Fin (fst p) : X, Fin (snd p) : X)) ps in
  exists us ur uz, doublet_line_polar_u (N := XN) arr (Fin D) false = Ok us /\ nth_error us i = Some (Fin ur, Fin uz) /\
    forall eps, 0 < eps -> exists Z, forall zmax, Z <= zmax -> exists M, forall n, (M <= n)%nat ->
      exists vs vr vz, doublet_line_polar_u_num (N := XN) (Fin D) (Fin 0) (Fin zmax) n arr = Ok vs /\ nth_error vs i = Some (Fin vr, Fin vz) /\
        Rabs (vr - ur) <= eps /\ Rabs (vz - uz) <= eps.
Proof.
  intros D ps i r z HN Hi Far HR arr. pose proof (any_neg_false ps HN) as NN. fold arr in NN.
  assert (Hr : 0 <= r) by (rewrite Forall_forall in HN; apply (HN (r, z)); eapply nth_error_In; eauto).
  destruct (C64_polar_agrees_with_cartesian D r z 0 false) as (ur & uz & E1 & E2).
  { unfold polar_regular in HR. tauto. }
  rewrite cos_0, sin_0, !Rmult_1_r, !Rmult_0_r in E2.
  destruct (C99_doublet_sum_converges D 0 (r, 0, z) Far) as (u & Eu & CV). rewrite E2 in Eu. apply xv_inj in Eu. subst u.
  unfold doublet_line_polar_u. rewrite NN. eexists _, ur, uz. split; [reflexivity|]. split.
  { unfold arr. rewrite map_map. rewrite nth_error_map, Hi. cbn [option_map fst snd]. f_equal.
    unfold doublet_line_polar_u in E1. destruct (any_neg (N := XN) [(Fin r, Fin z)]); [discriminate|]. cbn [map] in E1. apply Ok_inj in E1. apply (f_equal (fun l : list (X * X) => hd (Fin 0, Fin 0) l)) in E1. exact E1. }
  intros eps He. destruct (CV eps He) as [Z HZ]. exists (Rmax 0 Z). intros zmax Hz. pose proof (Rmax_l 0 Z). pose proof (Rmax_r 0 Z). destruct (HZ zmax ltac:(lra)) as [M HM].
  exists (2 + M)%nat. intros n Hn. destruct (HM n ltac:(lia)) as (v & Ev & V1 & _ & V3).
  destruct (dl_num_X D 0 (r, 0, z) zmax n ltac:(lia) ltac:(lra) Far) as (v' & Ev' & W1 & _ & W3). rewrite Ev in Ev'. injection Ev' as Ev'. 
  assert (v' = v) by (apply xv_inj; unfold xv; congruence). subst v'. clear Ev'.
  rewrite pxE in V1. rewrite pzE in V3.
  unfold doublet_line_polar_u_num. rewrite linspace_X. destruct (linspace_two zmax n ltac:(lia)) as [l El].
  pose proof (nodes_nonneg zmax n) as ND. rewrite El. cbn [map]. set (h := zmax / INR (n - 1)) in *.
  change (nmul XN (Fin D) (nsub XN (Fin h) (Fin 0))) with (Fin (D * (h - 0)) : X). rewrite Rminus_0_r.
  change (Fin 0 :: Fin h :: map Fin l) with (map Fin (0 :: h :: l)). rewrite <- El.
  eexists _, (px v), (pz v). split; [apply (polar_fold (Fin (D * h)) _ arr (map (fun _ : X * X => (Fin 0, Fin 0)) arr) NN (map_zero_len arr))|]. split; [|split; assumption].
  rewrite map2_nth_error. unfold arr. rewrite !nth_error_map, Hi. cbn [option_map fst snd].
  rewrite (polar_fold_pt (D * h) r z _ _ (0, 0) Hr eq_refl).
  - cbn [fst snd]. rewrite W1, W3. rewrite !Rplus_0_l. rewrite linspace_seq by lia. rewrite !map_map. unfold rect. rewrite Rminus_0_r. fold h.
    do 3 f_equal; f_equal; apply map_ext; intros k; rewrite Rplus_0_l, pd_scal, Rmult_0_l; reflexivity.
  - intros s Hs. assert (S0 : 0 <= s) by (apply (ND s); auto; [lia|lra]). pose proof (Far s S0) as F. rewrite Rmult_0_l in F. exact F.
Qed.
Example C98_case : ~ (3 = 1 * 2 /\ 1 = 0 /\ 0 <= 2). Proof. lra. Qed.
Example C99_case : far_from_line 1 (3, 1, 0) /\ polar_regular 1 0.
Proof.
  split; [|left; split; [lra|right; reflexivity]]. intros s Hs. set (L := length3 (sub3 (3, 1, 0) (1 * s, 0, s))).
  assert (L0 : 0 <= L) by apply length3_pos. assert (L2 : L * L = (3 - s) * (3 - s) + 1 + s * s).
  { unfold L. rewrite length3_sq. unfold inner, sub3, px, py, pz. cbn [fst snd]. ring. }
  pose proof (Rsq_pos (3 - s)). pose proof (Rsq_pos s). assert (1 <= L) by nra. replace (L ^ 3) with (L * L * L) by ring. nra.
Qed.
