(** * Geometry of the wind turbine in exact real arithmetic *)
From Coq Require Import ZArith List Bool Arith Lia String Reals Lra Psatz.
From Verif Require Import Num NumR NumX Spec M_Cylinder M_Turbine.
Import ListNotations.
Local Open Scope R_scope.

Ltac pt3 := repeat match goal with p : R3 |- _ => destruct p as [[? ?] ?] end;
            repeat match goal with p : (R * R * R)%type |- _ => destruct p as [[? ?] ?] end.
Ltac unf := unfold rotate, add3, sub3, scal3, inner, vprod, unit3, perp, triple, px, py, pz in *;
            cbn [fst snd] in *.
Ltac t3 := apply (f_equal2 pair); [apply (f_equal2 pair)|].
Ltac rn := cbn [nadd nsub nmul ndiv nopp nZ nQ ncos nsin nsqrt nabs sq RN T] in *; unfold sq in *.

Definition mv (M : R3 * R3 * R3) (v : R3) : R3 := mvec (N := RN) M v.

Lemma RotMat_rodrigues (u v : R3) th : mv (RotMat_AxisAngle (N := RN) u th) v = rotate u th v.
Proof.
  pt3. unf. unfold mv; cbn. t3; ring.
Qed.
Lemma eq3 (a b : R3) : px a = px b -> py a = py b -> pz a = pz b -> a = b.
Proof. pt3; unf; intros; subst; reflexivity. Qed.

Lemma rotate_inner (u a b : R3) th : unit3 u -> inner (rotate u th a) (rotate u th b) = inner a b.
Proof.
  intros H. pose proof (sin2_cos2 th) as Hc. unfold Rsqr in Hc.
  unfold unit3 in H. unfold rotate.
  set (c := cos th) in *. set (s := sin th) in *.
  transitivity (c * c * inner a b + 2 * c * (1 - c) * (inner u a * inner u b)
                + s * s * (inner u u * inner a b - inner u a * inner u b)
                + (1 - c) * (1 - c) * (inner u a * inner u b) * inner u u).
  { clear. pt3. unf. ring. }
  rewrite H. replace (s * s) with (1 - c * c) by lra. ring.
Qed.
Lemma rotate_axis (u : R3) th : unit3 u -> rotate u th u = u.
Proof.
  intros H. unfold unit3 in H. unfold rotate. rewrite H. pt3. unf. t3; ring.
Qed.
Lemma rotate_perp (u v : R3) th : perp u v ->
  rotate u th v = add3 (scal3 (cos th) v) (scal3 (sin th) (vprod u v)).
Proof.
  intros H. unfold perp in H. unfold rotate. rewrite H. pt3. unf. t3; ring.
Qed.
Lemma rotate_0 (u v : R3) : rotate u 0 v = v.
Proof. pt3. unf. rewrite cos_0, sin_0. t3; ring. Qed.
Lemma rotate_plus (u v : R3) a b : unit3 u -> rotate u a (rotate u b v) = rotate u (a + b) v.
Proof.
  intros H. unfold unit3 in H. unfold rotate. rewrite cos_plus, sin_plus.
  set (ca := cos a). set (sa := sin a). set (cb := cos b). set (sb := sin b).
  transitivity (add3 (add3 (add3 (scal3 (ca * cb - sa * sb) v) (scal3 (sa * cb + ca * sb) (vprod u v)))
                     (scal3 ((1 - (ca * cb - sa * sb)) * inner u v) u))
                     (scal3 (inner u u - 1) (add3 (scal3 (- (sa * sb)) v)
                                             (scal3 ((1 - ca) * (1 - cb) * inner u v) u)))).
  - clear. pt3. unf. t3; ring.
  - rewrite H. apply eq3; unf; ring.
Qed.
Lemma rotate_2PI (u v : R3) th : rotate u (th + 2 * PI) v = rotate u th v.
Proof. unfold rotate. rewrite cos_plus, sin_plus, cos_2PI, sin_2PI. rewrite !Rmult_1_r, !Rmult_0_r, Rminus_0_r, Rplus_0_r. reflexivity. Qed.
Lemma rotate_add (u a b : R3) th : rotate u th (add3 a b) = add3 (rotate u th a) (rotate u th b).
Proof. pt3. unf. t3; ring. Qed.
Lemma rotate_scal (u a : R3) k th : rotate u th (scal3 k a) = scal3 k (rotate u th a).
Proof. pt3. unf. t3; ring. Qed.
Lemma rotate_vprod (u a b : R3) th : unit3 u ->
  vprod (rotate u th a) (rotate u th b) = rotate u th (vprod a b).
Proof.
  intros H. pose proof (sin2_cos2 th) as Hc. unfold Rsqr in Hc.
  unfold unit3 in H. unfold rotate.
  set (c := cos th) in *. set (s := sin th) in *.
  transitivity (add3 (add3 (scal3 (c * c + c * (1 - c) * inner u u) (vprod a b))
                           (scal3 (c * s + s * (1 - c) * inner u u) (vprod u (vprod a b))))
                     (scal3 ((s * s - c * (1 - c)) * inner u (vprod a b)) u)).
  - clear. pt3. unf. t3; ring.
  - rewrite H. replace (s * s) with (1 - c * c) by lra.
    clear. pt3. unf. t3; ring.
Qed.
Lemma RotMat_triple (u a b c : R3) th : unit3 u ->
  triple (rotate u th a) (rotate u th b) (rotate u th c) = triple a b c.
Proof. intros H. unfold triple. rewrite rotate_vprod, rotate_inner; auto. Qed.

Lemma dot_inner (a b : R3) : dot (N := RN) a b = inner a b.
Proof. pt3; reflexivity. Qed.
Lemma cross_vprod (a b : R3) : cross (N := RN) a b = vprod a b.
Proof. pt3; reflexivity. Qed.
Lemma norm_length3 (a : R3) : norm (N := RN) a = length3 a.
Proof. pt3; reflexivity. Qed.
Lemma vsub_sub3 (a b : R3) : vsub (N := RN) a b = sub3 a b.
Proof. pt3; reflexivity. Qed.
Lemma vscale_scal3 k (a : R3) : vscale (N := RN) k a = scal3 k a.
Proof. pt3; reflexivity. Qed.
Lemma vadd_add3 (a b : R3) : vadd (N := RN) a b = add3 a b.
Proof. pt3; reflexivity. Qed.
Lemma vdivs_scal3 (a : R3) k : vdivs (N := RN) a k = scal3 (/ k) a.
Proof. pt3; cbn; unfold scal3, px, py, pz; cbn; unfold Rdiv. t3; ring. Qed.
Lemma length3_unit a : unit3 a -> length3 a = 1.
Proof. unfold unit3, length3; intros ->. apply sqrt_1. Qed.
Lemma inner_sym a b : inner a b = inner b a.
Proof. pt3; unf; ring. Qed.
Lemma inner_scal_l k a b : inner (scal3 k a) b = k * inner a b.
Proof. pt3; unf; ring. Qed.
Lemma inner_scal_r k a b : inner a (scal3 k b) = k * inner a b.
Proof. pt3; unf; ring. Qed.
Lemma inner_add_l a b c : inner (add3 a b) c = inner a c + inner b c.
Proof. pt3; unf; ring. Qed.
Lemma inner_pos a : 0 <= inner a a.
Proof. pt3; unf; nra. Qed.
Lemma length3_scal k a : length3 (scal3 k a) = Rabs k * length3 a.
Proof.
  unfold length3. rewrite inner_scal_l, inner_scal_r.
  replace (k * (k * inner a a)) with (Rsqr k * inner a a) by (unfold Rsqr; ring).
  rewrite sqrt_mult_alt by apply Rle_0_sqr. rewrite sqrt_Rsqr_abs. reflexivity.
Qed.

(** ** Matrices *)
Lemma mvec_mmul (A B : R3 * R3 * R3) (v : R3) : mv (mmul (N := RN) A B) v = mv A (mv B v).
Proof.
  destruct A as [[a b] c], B as [[d e] f]. pt3. unfold mv; cbn. t3; ring.
Qed.
Lemma mcols_mv (a b c v : R3) :
  mv (mcols (N := RN) a b c) v =
  add3 (add3 (scal3 (px v) a) (scal3 (py v) b)) (scal3 (pz v) c).
Proof. pt3. unfold mv; cbn. unf. t3; ring. Qed.
Lemma mv_tr (A : R3 * R3 * R3) (a b : R3) : inner (mv (mtr (N := RN) A) a) b = inner a (mv A b).
Proof. destruct A as [[A0 A1] A2]. pt3. unfold mv; cbn. unf. ring. Qed.
Lemma transform_mv (M : R3 * R3 * R3) (p : R3) : transform (N := RN) M p = mv M p.
Proof. destruct M as [[A0 A1] A2]. pt3. reflexivity. Qed.
Lemma transform_T_mv (M : R3 * R3 * R3) (p : R3) : transform_T (N := RN) M p = mv (mtr (N := RN) M) p.
Proof. destruct M as [[A0 A1] A2]. pt3. reflexivity. Qed.

(** The cylinder-to-global matrix of a turbine whose shaft and vertical are
    orthonormal. *)
Definition c2g (sh vert : R3) (yaw : R) : R3 * R3 * R3 :=
  mmul (N := RN) (RotMat_AxisAngle (N := RN) vert yaw)
       (mcols (N := RN) (cross (N := RN) vert sh) vert sh).
Lemma c2g_mv (sh vert : R3) yaw (v : R3) :
  mv (c2g sh vert yaw) v =
  rotate vert yaw (add3 (add3 (scal3 (px v) (vprod vert sh)) (scal3 (py v) vert)) (scal3 (pz v) sh)).
Proof.
  unfold c2g. rewrite mvec_mmul, RotMat_rodrigues, mcols_mv, cross_vprod. reflexivity.
Qed.
Lemma frame_comb_inner sh vert a b : frame sh vert ->
  let f v := add3 (add3 (scal3 (px v) (vprod vert sh)) (scal3 (py v) vert)) (scal3 (pz v) sh) in
  inner (f a) (f b) = inner a b.
Proof.
  intros (H1 & H2 & H3); cbv zeta. unfold unit3, perp in *.
  transitivity (px a * px b * (inner vert vert * inner sh sh - inner sh vert * inner sh vert)
                + py a * py b * inner vert vert + pz a * pz b * inner sh sh
                + (py a * pz b + pz a * py b) * inner sh vert).
  { clear. pt3. unf. ring. }
  rewrite H1, H2, H3. unfold inner. ring.
Qed.
Lemma c2g_inner sh vert yaw a b : frame sh vert ->
  inner (mv (c2g sh vert yaw) a) (mv (c2g sh vert yaw) b) = inner a b.
Proof.
  intros H. rewrite !c2g_mv, rotate_inner by apply H. apply frame_comb_inner; auto.
Qed.
Lemma inner_ext a b : (forall v, inner a v = inner b v) -> a = b.
Proof.
  intros H. pose proof (H (1,0,0)). pose proof (H (0,1,0)). pose proof (H (0,0,1)).
  pt3. unf. t3; lra.
Qed.
Lemma c2g_tr_l sh vert yaw a : frame sh vert ->
  mv (mtr (N := RN) (c2g sh vert yaw)) (mv (c2g sh vert yaw) a) = a.
Proof.
  intros H. apply inner_ext; intros v. rewrite mv_tr. apply c2g_inner; auto.
Qed.
(** surjectivity: the explicit inverse image *)
Lemma c2g_surj sh vert yaw a : frame sh vert -> exists b, mv (c2g sh vert yaw) b = a.
Proof.
  intros (H1 & H2 & H3).
  pose (w := rotate vert (- yaw) a).
  exists (inner w (vprod vert sh), inner w vert, inner w sh).
  rewrite c2g_mv. unfold px, py, pz; cbn [fst snd].
  assert (E : add3 (add3 (scal3 (inner w (vprod vert sh)) (vprod vert sh))
                         (scal3 (inner w vert) vert)) (scal3 (inner w sh) sh) = w).
  { clearbody w. unfold unit3, perp in *.
    assert (G : add3 (add3 (scal3 (inner w (vprod vert sh)) (vprod vert sh))
                 (scal3 (inner w vert * inner sh sh - inner w sh * inner sh vert) vert))
                 (scal3 (inner w sh * inner vert vert - inner w vert * inner sh vert) sh)
                = scal3 (inner vert vert * inner sh sh - inner sh vert * inner sh vert) w).
    { clear. pt3. unf. t3; ring. }
    rewrite H1, H2, H3 in G.
    replace (inner w vert * 1 - inner w sh * 0) with (inner w vert) in G by ring.
    replace (inner w sh * 1 - inner w vert * 0) with (inner w sh) in G by ring.
    rewrite G. apply eq3; unf; ring. }
  rewrite E. unfold w. rewrite rotate_plus by auto. rewrite Rplus_opp_r, rotate_0. reflexivity.
Qed.
Lemma c2g_tr_r sh vert yaw a : frame sh vert ->
  mv (c2g sh vert yaw) (mv (mtr (N := RN) (c2g sh vert yaw)) a) = a.
Proof.
  intros H. destruct (c2g_surj sh vert yaw a H) as [b <-]. rewrite c2g_tr_l by auto. reflexivity.
Qed.
Lemma c2g_tr_inner sh vert yaw a b : frame sh vert ->
  inner (mv (mtr (N := RN) (c2g sh vert yaw)) a) (mv (mtr (N := RN) (c2g sh vert yaw)) b) = inner a b.
Proof.
  intros H. rewrite mv_tr, c2g_tr_r by auto. reflexivity.
Qed.
