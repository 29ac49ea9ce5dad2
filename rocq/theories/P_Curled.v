(** * Properties of wiz/examples/CurledWake_2D.py: C100-C102 *)
From Coquelicot Require Import Coquelicot.
From Coq Require Import ZArith List Bool Arith Lia String Reals Lra Psatz.
From Verif Require Import Num NumR NumX M_Misc M_Curled M_Line M_Cylinder M_Skewed L_List L_X Spec SpecBS L_Calc L_Built P_Line P_Misc P_Skewed P_Quad.
Import ListNotations.
Local Open Scope R_scope.
Local Notation len := List.length.

(** ** Specification *)
(** the x axis *)
Definition ex : R3 := (1, 0, 0).
(** the point of the rim of the yawed disk of radius [Rr] at azimuth [t] *)
Definition rim_pt (Rr yaw t : R) : R3 := (- (Rr * cos t * sin yaw), Rr * cos t * cos yaw, Rr * sin t).
(** an entry of the theta, gamma_x and sigma arrays *)
Record rnode := { rth : R; rgam : R; rsig : option R }.
Definition lnode (n : rnode) : node XN :=
  {| nth_ := Fin (rth n) : XN; ngam := Fin (rgam n) : XN; nsig := option_map (fun s => Fin s : XN) (rsig n) |}.
Definition core (s : option R) (d2 : R) : R := match s with None => 1 | Some s => 1 - exp (- (d2 / (s * s))) end.
Definition core_ok (n : rnode) : Prop := rsig n <> Some 0.
(** trapezoidal rule over abscissae and values *)
Fixpoint trapez (l : list (R * R)) : R :=
  match l with
  | (t0, v0) :: (((t1, v1) :: _) as l') => (t1 - t0) * ((v0 + v1) / 2) + trapez l'
  | _ => 0
  end.
(** [p] is not on the half line that starts at the rim point of [n] and goes downstream *)
Definition off_trail (Rr yaw : R) (p : R3) (n : rnode) : Prop := ~ exists s, 0 <= s /\ p = add3 (rim_pt Rr yaw (rth n)) (scal3 s ex).
(** projection on the (y,z) plane *)
Definition yz (p : R3) : R * R := (py p, pz p).

(** ** Real-number forms *)
Lemma trapez_cons t0 v0 t1 v1 l : trapez ((t0, v0) :: (t1, v1) :: l) = (t1 - t0) * ((v0 + v1) / 2) + trapez ((t1, v1) :: l).
Proof. reflexivity. Qed.
Lemma trapez_trapz l : trapez l = trapz (N := RN) (map snd l) (map fst l).
Proof.
  induction l as [|[t0 v0] l IH]; [reflexivity|]. destruct l as [|[t1 v1] l]; [reflexivity|].
  rewrite trapez_cons, IH. cbn [map fst snd].
  change (trapz (N := RN) (v0 :: v1 :: map snd l) (t0 :: t1 :: map fst l)) with ((t1 - t0) * (v1 + v0) / 2 + trapz (N := RN) (v1 :: map snd l) (t1 :: map fst l)).
  f_equal. field.
Qed.
Lemma trapz_nodes (f : rnode -> XN) (g : rnode -> R) nodes : (forall n, In n nodes -> f n = Fin (g n)) ->
  trapz (N := XN) (map f nodes) (map (fun n => nth_ (lnode n)) nodes) = Fin (trapez (map (fun n => (rth n, g n)) nodes)).
Proof.
  intros H. rewrite trapez_trapz. rewrite !map_map. cbn [fst snd]. rewrite <- trapz_X. rewrite !map_map. f_equal. apply map_ext_in. exact H.
Qed.
Lemma smooth_X s d : s <> Some 0 -> smooth (N := XN) (option_map (fun s => Fin s : XN) s) (Fin d) = Fin (core s d).
Proof.
  intros H. destruct s as [s|]; [|reflexivity]. cbn [option_map smooth core].
  assert (s * s <> 0) by (intros E; apply H; destruct (Rmult_integral _ _ E); congruence).
  xfin auto. f_equal. f_equal. f_equal. field. intros E; apply H; congruence.
Qed.
Lemma ex_unit : unit3 ex.
Proof. unfold unit3, inner, ex, px, py, pz. cbn [fst snd]. ring. Qed.
Lemma off_trail_pos Rr yaw p n : off_trail Rr yaw p n ->
  let a := sub3 p (rim_pt Rr yaw (rth n)) in 0 < length3 a * (length3 a - inner a ex).
Proof.
  intros H a. apply Rnot_le_lt. intros L. apply (on_half_line ex a ex_unit) in L. destruct L as (s & Hs & E). apply H. exists s. split; auto.
  rewrite <- E. unfold a. destruct p as [[x y] z], (rim_pt Rr yaw (rth n)) as [[x1 y1] z1]. unfold add3, sub3, px, py, pz. cbn [fst snd]. apply tri; ring.
Qed.
Definition kl (Rr yaw : R) (p : R3) (n : rnode) : R3 := klineR (Rr * rgam n) ex (sub3 p (rim_pt Rr yaw (rth n))).
Lemma vcl_int_X Rr yaw n x y z : core_ok n -> off_trail Rr yaw (x, y, z) n ->
  let k := core (rsig n) (dist2 (y, z) (yz (rim_pt Rr yaw (rth n)))) in
  vcl_integrand (N := XN) (Fin Rr) (Fin yaw) (lnode n) (Fin x) (Fin y) (Fin z) =
  (Fin (k * py (kl Rr yaw (x, y, z) n)) : XN, Fin (k * pz (kl Rr yaw (x, y, z) n)) : XN).
Proof.
  intros HC OFF k. pose proof PI_RGT_0 as HP. pose proof (off_trail_pos _ _ _ _ OFF) as D. cbv zeta in D.
  set (x1 := - (Rr * cos (rth n) * sin yaw)) in *. set (y1 := Rr * cos (rth n) * cos yaw) in *. set (z1 := Rr * sin (rth n)) in *.
  assert (EL : length3 (sub3 (x, y, z) (rim_pt Rr yaw (rth n))) = sqrt ((x - x1) * (x - x1) + (y - y1) * (y - y1) + (z - z1) * (z - z1))) by reflexivity.
  assert (EI : inner (sub3 (x, y, z) (rim_pt Rr yaw (rth n))) ex = x - x1).
  { unfold inner, ex, sub3, rim_pt, px, py, pz. cbn [fst snd]. fold x1 y1 z1. ring. }
  rewrite EL, EI in D.
  assert (A0 : 0 <= (x - x1) * (x - x1) + (y - y1) * (y - y1) + (z - z1) * (z - z1)).
  { pose proof (Rsq_pos (x - x1)). pose proof (Rsq_pos (y - y1)). pose proof (Rsq_pos (z - z1)). lra. }
  unfold vcl_integrand. cbn [nth_ ngam nsig lnode].
  change (nmul XN (nmul XN (nopp XN (Fin Rr)) (ncos XN (Fin (rth n)))) (nsin XN (Fin yaw))) with (Fin (- Rr * cos (rth n) * sin yaw) : XN).
  replace (- Rr * cos (rth n) * sin yaw) with x1 by (unfold x1; ring).
  change (nmul XN (nmul XN (Fin Rr) (ncos XN (Fin (rth n)))) (ncos XN (Fin yaw))) with (Fin y1 : XN).
  change (nmul XN (Fin Rr) (nsin XN (Fin (rth n)))) with (Fin z1 : XN).
  cbv zeta.
  change (nadd XN (sq (nsub XN (Fin z) (Fin z1))) (sq (nsub XN (Fin y) (Fin y1)))) with (Fin ((z - z1) * (z - z1) + (y - y1) * (y - y1)) : XN).
  rewrite smooth_X by exact HC. xn. rewrite xsqrt_fin by exact A0. xn. rewrite xdiv_fin by lra. rewrite xdiv_fin by lra. xn.
  unfold k, kl, klineR. rewrite EL, EI. unfold dist2, yz, rim_pt, py, pz. cbn [fst snd]. fold y1 z1.
  replace ((z - z1) * (z - z1) + (y - y1) * (y - y1)) with ((y - y1) * (y - y1) + (z - z1) * (z - z1)) by ring.
  set (cc := core _ _). unfold scal3, vprod, ex, sub3, px, py, pz. cbn [fst snd]. fold x1.
  set (S := sqrt _) in *. assert (S <> 0) by (intros E; rewrite E in D; lra). assert (S - (x - x1) <> 0) by (intros E; rewrite E in D; lra).
  f_equal; f_equal; field; repeat split; try lra; auto.
Qed.
(** C100 *)
Theorem C100_trailed_lines_biot_savart : forall Rr yaw (nodes : list rnode) (cps : list R3),
  (forall n, In n nodes -> core_ok n) -> (forall p n, In p cps -> In n nodes -> off_trail Rr yaw p n) ->
  exists F : R3 -> rnode -> R3,
    (forall p n, In p cps -> In n nodes -> half_line_velocity (Rr * rgam n) (rim_pt Rr yaw (rth n)) ex p (F p n) /\ px (F p n) = 0) /\
    vcl_u (N := XN) (Fin Rr) (Fin yaw) (map lnode nodes) (map xv cps) =
    map (fun p => let k n := core (rsig n) (dist2 (yz p) (yz (rim_pt Rr yaw (rth n)))) in
                  fin2 (trapez (map (fun n => (rth n, k n * py (F p n))) nodes), trapez (map (fun n => (rth n, k n * pz (F p n))) nodes))) cps.
Proof.
  intros Rr yaw nodes cps HC OFF. exists (kl Rr yaw). split.
  { intros p n Hp Hn. split.
    - apply half_line_shift. apply half_line; [apply ex_unit|]. apply off_trail_pos. auto.
    - unfold kl, klineR, scal3, vprod, ex, px, py, pz. cbn [fst snd]. ring. }
  unfold vcl_u. rewrite map_map. apply map_ext_in. intros [[x y] z] Hp. unfold vcl_u_pt, xv, px, py, pz. cbn [fst snd]. cbv zeta.
  unfold fin2. cbn [fst snd]. rewrite !map_map.
  f_equal; apply trapz_nodes; intros n Hn; rewrite (vcl_int_X Rr yaw n x y z (HC n Hn) (OFF _ n Hp Hn)); reflexivity.
Qed.

(** ** The two-dimensional ellipse *)
Definition kp (Rr yaw : R) (p : R * R) (n : rnode) : R * R :=
  let e := yz (rim_pt Rr yaw (rth n)) in
  let k := core (rsig n) (dist2 p e) * (Rr * rgam n / (2 * PI * dist2 p e)) in
  (- (snd p - snd e) * k, (fst p - fst e) * k).
Lemma ve_int_X Rr yaw n y z : core_ok n -> (y, z) <> yz (rim_pt Rr yaw (rth n)) ->
  ve_integrand (N := XN) (Fin Rr) (Fin yaw) (lnode n) (Fin y) (Fin z) = fin2 (kp Rr yaw (y, z) n).
Proof.
  intros HC OFF. pose proof PI_RGT_0 as HP. pose proof (dist2_pos _ _ OFF) as D.
  unfold ve_integrand. cbn [nth_ ngam nsig lnode]. set (y1 := Rr * cos (rth n) * cos yaw) in *. set (z1 := Rr * sin (rth n)) in *.
  change (nmul XN (nmul XN (Fin Rr) (ncos XN (Fin (rth n)))) (ncos XN (Fin yaw))) with (Fin y1 : XN).
  change (nmul XN (Fin Rr) (nsin XN (Fin (rth n)))) with (Fin z1 : XN).
  cbv zeta. change (nadd XN (sq (nsub XN (Fin z) (Fin z1))) (sq (nsub XN (Fin y) (Fin y1)))) with (Fin ((z - z1) * (z - z1) + (y - y1) * (y - y1)) : XN).
  rewrite smooth_X by exact HC. unfold kp, fin2.
  change (yz (rim_pt Rr yaw (rth n))) with (y1, z1) in *. unfold dist2 in *. cbn [fst snd] in *. 
  xn. rewrite xdiv_fin by lra. rewrite xdiv_fin by lra. xn.
  replace ((z - z1) * (z - z1) + (y - y1) * (y - y1)) with ((y - y1) * (y - y1) + (z - z1) * (z - z1)) by ring.
  set (cc := core _ _). f_equal; f_equal; field; repeat split; lra.
Qed.
Lemma ve_pt_X Rr yaw nodes p : (forall n, In n nodes -> core_ok n) -> (forall n, In n nodes -> p <> yz (rim_pt Rr yaw (rth n))) ->
  ve_u_pt (N := XN) (Fin Rr) (Fin yaw) (map lnode nodes) (fin2 p) =
  fin2 (trapez (map (fun n => (rth n, fst (kp Rr yaw p n))) nodes), trapez (map (fun n => (rth n, snd (kp Rr yaw p n))) nodes)).
Proof.
  intros HC OFF. destruct p as [y z]. unfold ve_u_pt, fin2. cbn [fst snd]. cbv zeta. rewrite !map_map.
  f_equal; apply trapz_nodes; intros n Hn; rewrite (ve_int_X Rr yaw n y z (HC n Hn) (OFF n Hn)); reflexivity.
Qed.
(** a trapezoidal sum of convergent values converges *)
Lemma trapez_lim (nodes : list rnode) (f : R -> rnode -> R) (g : rnode -> R) :
  (forall n, In n nodes -> forall eps, 0 < eps -> exists X0, forall x, X0 <= x -> Rabs (f x n - g n) <= eps) ->
  forall eps, 0 < eps -> exists X0, forall x, X0 <= x ->
    Rabs (trapez (map (fun n => (rth n, f x n)) nodes) - trapez (map (fun n => (rth n, g n)) nodes)) <= eps.
Proof.
  induction nodes as [|n0 nodes IH]; intros H eps He.
  - exists 0. intros x _. cbn [map trapez]. rewrite Rminus_0_r, Rabs_R0. lra.
  - destruct nodes as [|n1 nodes].
    + exists 0. intros x _. cbn [map trapez]. rewrite Rminus_0_r, Rabs_R0. lra.
    + destruct (IH (fun n Hn => H n (or_intror Hn)) (eps / 2) ltac:(lra)) as [X1 H1].
      set (d := Rabs (rth n1 - rth n0) + 1). assert (D : 0 < d) by (unfold d; pose proof (Rabs_pos (rth n1 - rth n0)); lra).
      assert (E : 0 < eps / 2 / d) by (apply Rdiv_lt_0_compat; lra).
      destruct (H n0 (or_introl eq_refl) _ E) as [X2 H2]. destruct (H n1 (or_intror (or_introl eq_refl)) _ E) as [X3 H3].
      exists (Rmax X1 (Rmax X2 X3)). intros x Hx. pose proof (Rmax_l X1 (Rmax X2 X3)). pose proof (Rmax_r X1 (Rmax X2 X3)). pose proof (Rmax_l X2 X3). pose proof (Rmax_r X2 X3).
      specialize (H1 x ltac:(lra)). specialize (H2 x ltac:(lra)). specialize (H3 x ltac:(lra)).
      change (map (fun n => (rth n, f x n)) (n0 :: n1 :: nodes)) with ((rth n0, f x n0) :: (rth n1, f x n1) :: map (fun n => (rth n, f x n)) nodes).
      change (map (fun n => (rth n, g n)) (n0 :: n1 :: nodes)) with ((rth n0, g n0) :: (rth n1, g n1) :: map (fun n => (rth n, g n)) nodes).
      rewrite !trapez_cons. change ((rth n1, f x n1) :: map (fun n => (rth n, f x n)) nodes) with (map (fun n => (rth n, f x n)) (n1 :: nodes)).
      change ((rth n1, g n1) :: map (fun n => (rth n, g n)) nodes) with (map (fun n => (rth n, g n)) (n1 :: nodes)).
      set (A := trapez (map (fun n => (rth n, f x n)) (n1 :: nodes))) in *. set (B := trapez (map (fun n => (rth n, g n)) (n1 :: nodes))) in *.
      replace (_ + A - (_ + B)) with ((rth n1 - rth n0) * ((f x n0 - g n0 + (f x n1 - g n1)) / 2) + (A - B)) by field.
      eapply Rle_trans; [apply Rabs_triang|]. rewrite Rabs_mult.
      assert (K : Rabs ((f x n0 - g n0 + (f x n1 - g n1)) / 2) <= eps / 2 / d).
      { unfold Rdiv at 1. rewrite Rabs_mult, (Rabs_pos_eq (/ 2)) by lra. pose proof (Rabs_triang (f x n0 - g n0) (f x n1 - g n1)). lra. }
      assert (Rabs (rth n1 - rth n0) * Rabs ((f x n0 - g n0 + (f x n1 - g n1)) / 2) <= d * (eps / 2 / d)).
      { apply Rmult_le_compat; try apply Rabs_pos; auto. unfold d. lra. }
      replace (d * (eps / 2 / d)) with (eps / 2) in * by (field; lra). lra.
Qed.
(** the half line seen from far downstream is the two-dimensional vortex *)
Lemma kl_coef a d2 : 0 < a -> 0 < d2 -> let L := sqrt (a * a + d2) in
  0 < L * (L - a) /\ Rabs (/ (L * (L - a)) - 2 / d2) <= / (a * a).
Proof.
  intros Ha Hd L. assert (A2 : 0 < a * a) by nra. assert (L2 : L * L = a * a + d2) by (apply sqrt_sqrt; lra).
  assert (L0 : 0 < L) by (apply sqrt_lt_R0; lra). assert (LA : a < L) by nra.
  assert (P : 0 < L * (L - a)) by (apply Rmult_lt_0_compat; lra). split; [exact P|].
  assert (E : / (L * (L - a)) - 2 / d2 = - / (L * (L + a))).
  { assert (ED : d2 = (L - a) * (L + a)) by nra. rewrite ED. field. repeat split; lra. }
  rewrite E, Rabs_Ropp, Rabs_pos_eq by (apply Rlt_le, Rinv_0_lt_compat, Rmult_lt_0_compat; lra).
  apply Rinv_le_contravar; nra.
Qed.
Lemma off_axis_trail Rr yaw n x y z : (y, z) <> yz (rim_pt Rr yaw (rth n)) -> off_trail Rr yaw (x, y, z) n.
Proof.
  intros H (s & _ & E). apply H. unfold yz, add3, scal3, ex, rim_pt, px, py, pz in *. cbn [fst snd] in *. apply (f_equal (fun q : R3 => (snd (fst q), snd q))) in E. cbn [fst snd] in E. rewrite E. f_equal; ring.
Qed.
Lemma scaled_lim (k c v : R) (f : R -> R) (x1 : R) : (forall x, x1 < x -> Rabs (f x - v) <= / ((x - x1) * (x - x1))) ->
  forall eps, 0 < eps -> exists X0, forall x, X0 <= x -> Rabs (k * (c * f x) - k * (c * v)) <= eps.
Proof.
  intros H eps He. set (m := Rabs (k * c) + 1). assert (M : 1 <= m) by (unfold m; pose proof (Rabs_pos (k * c)); lra).
  set (b := Rmax 1 (m / eps)). assert (B1 : 1 <= b) by apply Rmax_l. assert (B2 : m / eps <= b) by apply Rmax_r.
  exists (x1 + b). intros x Hx. specialize (H x ltac:(lra)).
  replace (k * (c * f x) - k * (c * v)) with (k * c * (f x - v)) by ring. rewrite Rabs_mult.
  assert (B3 : b <= (x - x1) * (x - x1)) by nra.
  assert (I : / ((x - x1) * (x - x1)) <= / b) by (apply Rinv_le_contravar; lra).
  assert (J : / b <= eps / m). { replace (eps / m) with (/ (m / eps)) by (field; lra). apply Rinv_le_contravar; auto. apply Rdiv_lt_0_compat; lra. }
  eapply Rle_trans; [apply (Rmult_le_compat _ m _ (eps / m)); try apply Rabs_pos; [unfold m; lra|lra]|]. right. field. lra.
Qed.
Lemma kl_lim Rr yaw n y z : (y, z) <> yz (rim_pt Rr yaw (rth n)) ->
  let k := core (rsig n) (dist2 (y, z) (yz (rim_pt Rr yaw (rth n)))) in
  forall eps, 0 < eps ->
  (exists X0, forall x, X0 <= x -> Rabs (k * py (kl Rr yaw (x, y, z) n) - fst (kp Rr yaw (y, z) n)) <= eps) /\
  (exists X0, forall x, X0 <= x -> Rabs (k * pz (kl Rr yaw (x, y, z) n) - snd (kp Rr yaw (y, z) n)) <= eps).
Proof.
  intros OFF k eps He. pose proof PI_RGT_0 as HP. pose proof (dist2_pos _ _ OFF) as D.
  set (x1 := - (Rr * cos (rth n) * sin yaw)). set (e := yz (rim_pt Rr yaw (rth n))) in *. set (d2 := dist2 (y, z) e) in *.
  set (f := fun x => / (sqrt ((x - x1) * (x - x1) + d2) * (sqrt ((x - x1) * (x - x1) + d2) - (x - x1)))).
  assert (F : forall x, x1 < x -> Rabs (f x - 2 / d2) <= / ((x - x1) * (x - x1))) by (intros x Hx; apply kl_coef; lra).
  assert (EK : forall x, x1 < x -> kl Rr yaw (x, y, z) n = scal3 (Rr * rgam n / (4 * PI) * f x) (0, - (z - snd e), y - fst e)).
  { intros x Hx. destruct (kl_coef (x - x1) d2 ltac:(lra) D) as [P _]. cbv zeta in P.
    unfold kl, klineR, length3. replace (inner (sub3 (x, y, z) (rim_pt Rr yaw (rth n))) (sub3 (x, y, z) (rim_pt Rr yaw (rth n)))) with ((x - x1) * (x - x1) + d2).
    2:{ unfold d2, dist2, e, yz, inner, sub3, rim_pt, px, py, pz. cbn [fst snd]. fold x1. ring. }
    replace (inner (sub3 (x, y, z) (rim_pt Rr yaw (rth n))) ex) with (x - x1).
    2:{ unfold inner, ex, sub3, rim_pt, px, py, pz. cbn [fst snd]. fold x1. ring. }
    replace (vprod ex (sub3 (x, y, z) (rim_pt Rr yaw (rth n)))) with ((0, - (z - snd e), y - fst e) : R3).
    2:{ unfold e, yz, vprod, ex, sub3, rim_pt, px, py, pz. cbn [fst snd]. apply tri; ring. }
    f_equal. unfold f. set (S := sqrt _) in *. assert (S <> 0) by (intros E; rewrite E in P; lra). assert (S - (x - x1) <> 0) by (intros E; rewrite E in P; lra).
    field. repeat split; auto; lra. }
  assert (KK : kp Rr yaw (y, z) n = (k * (Rr * rgam n / (4 * PI) * - (z - snd e) * (2 / d2)), k * (Rr * rgam n / (4 * PI) * (y - fst e) * (2 / d2)))).
  { unfold kp. fold e. fold d2. fold k. cbn [fst snd]. f_equal; field; lra. }
  rewrite KK. cbn [fst snd]. split.
  - destruct (scaled_lim k (Rr * rgam n / (4 * PI) * - (z - snd e)) (2 / d2) f x1 F eps He) as [X0 H]. exists (Rmax X0 (x1 + 1)). intros x Hx.
    pose proof (Rmax_l X0 (x1 + 1)). pose proof (Rmax_r X0 (x1 + 1)). specialize (H x ltac:(lra)). rewrite EK by lra.
    unfold scal3, px, py, pz. cbn [fst snd]. replace (k * (Rr * rgam n / (4 * PI) * f x * - (z - snd e))) with (k * (Rr * rgam n / (4 * PI) * - (z - snd e) * f x)) by ring. exact H.
  - destruct (scaled_lim k (Rr * rgam n / (4 * PI) * (y - fst e)) (2 / d2) f x1 F eps He) as [X0 H]. exists (Rmax X0 (x1 + 1)). intros x Hx.
    pose proof (Rmax_l X0 (x1 + 1)). pose proof (Rmax_r X0 (x1 + 1)). specialize (H x ltac:(lra)). rewrite EK by lra.
    unfold scal3, px, py, pz. cbn [fst snd]. replace (k * (Rr * rgam n / (4 * PI) * f x * (y - fst e))) with (k * (Rr * rgam n / (4 * PI) * (y - fst e) * f x)) by ring. exact H.
Qed.
Lemma vcl_pt_X Rr yaw nodes y z x : (forall n, In n nodes -> core_ok n) -> (forall n, In n nodes -> off_trail Rr yaw (x, y, z) n) ->
  vcl_u_pt (N := XN) (Fin Rr) (Fin yaw) (map lnode nodes) (Fin x, Fin y, Fin z) =
  let k n := core (rsig n) (dist2 (y, z) (yz (rim_pt Rr yaw (rth n)))) in
  fin2 (trapez (map (fun n => (rth n, k n * py (kl Rr yaw (x, y, z) n))) nodes), trapez (map (fun n => (rth n, k n * pz (kl Rr yaw (x, y, z) n))) nodes)).
Proof.
  intros HC OFF. unfold vcl_u_pt. cbv zeta. unfold fin2. cbn [fst snd]. rewrite !map_map.
  f_equal; apply trapz_nodes; intros n Hn; rewrite (vcl_int_X Rr yaw n x y z (HC n Hn) (OFF n Hn)); reflexivity.
Qed.
(** C101: ve_u is what vcl_u tends to far downstream *)
Theorem C101_ellipse_is_the_far_wake : forall Rr yaw (nodes : list rnode) (p : R * R),
  (forall n, In n nodes -> core_ok n) -> (forall n, In n nodes -> p <> yz (rim_pt Rr yaw (rth n))) ->
  exists u, ve_u_pt (N := XN) (Fin Rr) (Fin yaw) (map lnode nodes) (fin2 p) = fin2 u /\
    forall eps, 0 < eps -> exists X0, forall x, X0 <= x ->
      exists v, vcl_u_pt (N := XN) (Fin Rr) (Fin yaw) (map lnode nodes) (Fin x, Fin (fst p), Fin (snd p)) = fin2 v /\
        Rabs (fst v - fst u) <= eps /\ Rabs (snd v - snd u) <= eps.
Proof.
  intros Rr yaw nodes [y z] HC OFF. eexists. split; [apply ve_pt_X; auto|]. cbn [fst snd]. intros eps He.
  set (k n := core (rsig n) (dist2 (y, z) (yz (rim_pt Rr yaw (rth n))))).
  destruct (trapez_lim nodes (fun x n => k n * py (kl Rr yaw (x, y, z) n)) (fun n => fst (kp Rr yaw (y, z) n))) with (eps := eps) as [X1 H1]; auto.
  { intros n Hn e Hpe. apply (kl_lim Rr yaw n y z (OFF n Hn) e Hpe). }
  destruct (trapez_lim nodes (fun x n => k n * pz (kl Rr yaw (x, y, z) n)) (fun n => snd (kp Rr yaw (y, z) n))) with (eps := eps) as [X2 H2]; auto.
  { intros n Hn e Hpe. apply (kl_lim Rr yaw n y z (OFF n Hn) e Hpe). }
  exists (Rmax X1 X2). intros x Hx. pose proof (Rmax_l X1 X2). pose proof (Rmax_r X1 X2).
  eexists. split; [rewrite vcl_pt_X; [reflexivity|auto|intros n Hn; apply off_axis_trail; auto]|]. cbn [fst snd].
  split; [apply H1; lra|apply H2; lra].
Qed.

(** ** The comparison made by main *)
Definition lth (ts : R * option R) : XN * option XN := (Fin (fst ts) : XN, option_map (fun s => Fin s : XN) (snd ts)).
Definition rshed (yaw gamma_t : R) (ts : R * option R) : rnode := {| rth := fst ts; rgam := gamma_t * sin yaw * sin (fst ts); rsig := snd ts |}.
Lemma shed_X yaw g ts : map (shed (N := XN) (Fin yaw) (Fin g)) (map lth ts) = map lnode (map (rshed yaw g) ts).
Proof. rewrite !map_map. apply map_ext. intros [t s]. reflexivity. Qed.
Lemma acc2_X a b : acc2 (N := XN) (fin2 a) (fin2 b) = fin2 (add2 a b).
Proof. reflexivity. Qed.
(** C101: the trailed-line model summed over the surfaces tends to the ellipse model *)
Theorem C101_models_agree_far_downstream : forall yaw (thetas : list (R * option R)) (surfaces : list (R * R)) (p : R * R),
  (forall ts, In ts thetas -> snd ts <> Some 0) ->
  (forall s ts, In s surfaces -> In ts thetas -> p <> yz (rim_pt (snd s) yaw (fst ts))) ->
  exists u, main_an (N := XN) (Fin yaw) (map lth thetas) (map fin2 surfaces) (fin2 p) = fin2 u /\
    forall eps, 0 < eps -> exists X0, forall x, X0 <= x ->
      exists v, main_vcl (N := XN) (Fin yaw) (map lth thetas) (map fin2 surfaces) (Fin x, Fin (fst p), Fin (snd p)) = fin2 v /\
        Rabs (fst v - fst u) <= eps /\ Rabs (snd v - snd u) <= eps.
Proof.
  intros yaw thetas surfaces p HC OFF. unfold main_an, main_vcl. change (nZ XN 0, nZ XN 0) with (fin2 (0, 0)).
  assert (K : exists u, (forall u0, fold_left (fun u s => acc2 u (ve_u_pt (N := XN) (snd s) (Fin yaw) (map (shed (N := XN) (Fin yaw) (fst s)) (map lth thetas)) (fin2 p))) (map fin2 surfaces) (fin2 u0) = fin2 (add2 u0 u)) /\
    forall eps, 0 < eps -> exists X0, forall x, X0 <= x -> exists v,
      (forall u0, fold_left (fun u s => acc2 u (vcl_u_pt (N := XN) (snd s) (Fin yaw) (map (shed (N := XN) (Fin yaw) (fst s)) (map lth thetas)) (Fin x, Fin (fst p), Fin (snd p)))) (map fin2 surfaces) (fin2 u0) = fin2 (add2 u0 v)) /\
      Rabs (fst v - fst u) <= eps /\ Rabs (snd v - snd u) <= eps).
  { induction surfaces as [|[g r] ss IH].
    - exists (0, 0). assert (Z : forall u0, add2 u0 (0, 0) = u0) by (intros [a b]; unfold add2; cbn [fst snd]; f_equal; ring). split; [intros u0; rewrite Z; reflexivity|].
      intros eps He. exists 0. intros x _. exists (0, 0). split; [intros u0; rewrite Z; reflexivity|]. cbn [fst snd]. rewrite Rminus_0_r, Rabs_R0. lra.
    - destruct (IH (fun s ts Hs => OFF s ts (or_intror Hs))) as (u & Eu & Lu).
      destruct (C101_ellipse_is_the_far_wake r yaw (map (rshed yaw g) thetas) p) as (w & Ew & Lw).
      { intros n Hn. apply in_map_iff in Hn. destruct Hn as (ts & <- & Hts). apply (HC ts Hts). }
      { intros n Hn. apply in_map_iff in Hn. destruct Hn as (ts & <- & Hts). apply (OFF (g, r) ts (or_introl eq_refl) Hts). }
      exists (add2 w u). split.
      + intros u0. cbn [map fold_left]. rewrite <- add2_assoc, <- Eu. f_equal. change (snd (fin2 (g, r))) with (Fin r : XN). change (fst (fin2 (g, r))) with (Fin g : XN). rewrite shed_X, Ew. reflexivity.
      + intros eps He. destruct (Lu (eps / 2) ltac:(lra)) as [X1 H1]. destruct (Lw (eps / 2) ltac:(lra)) as [X2 H2].
        exists (Rmax X1 X2). intros x Hx. pose proof (Rmax_l X1 X2). pose proof (Rmax_r X1 X2).
        destruct (H1 x ltac:(lra)) as (v1 & E1 & A1 & B1). destruct (H2 x ltac:(lra)) as (v2 & E2 & A2 & B2).
        exists (add2 v2 v1). split.
        * intros u0. cbn [map fold_left]. rewrite <- add2_assoc, <- E1. f_equal. change (snd (fin2 (g, r))) with (Fin r : XN). change (fst (fin2 (g, r))) with (Fin g : XN). rewrite shed_X, E2. reflexivity.
        * unfold add2. cbn [fst snd]. split.
          -- replace (fst v2 + fst v1 - (fst w + fst u)) with ((fst v2 - fst w) + (fst v1 - fst u)) by ring. eapply Rle_trans; [apply Rabs_triang|]. lra.
          -- replace (snd v2 + snd v1 - (snd w + snd u)) with ((snd v2 - snd w) + (snd v1 - snd u)) by ring. eapply Rle_trans; [apply Rabs_triang|]. lra. }
  destruct K as (u & Eu & Lu). exists u. split; [rewrite Eu, add2_0_l; reflexivity|]. intros eps He. destruct (Lu eps He) as [X0 H]. exists X0. intros x Hx.
  destruct (H x Hx) as (v & Ev & B). exists v. split; [rewrite Ev, add2_0_l; reflexivity|exact B].
Qed.

(** the trapezoidal rule of a periodic function over one period is the mean of the values without the last *)
Lemma lsum_shift (f : nat -> R) k : lsum (map (fun i => f (S i)) (seq 0 k)) = lsum (map f (seq 0 k)) + f k - f 0%nat.
Proof.
  induction k as [|k IH]; [cbn; ring|]. rewrite seq_S, !map_app, !lsum_app, IH. cbn [map Nat.add]. unfold lsum. cbn [fold_right]. ring.
Qed.
Lemma trapez_periodic (f : R -> R) n : (2 <= n)%nat -> let h := 2 * PI / INR (n - 1) in f (2 * PI) = f 0 ->
  trapez (map (fun t => (t, f t)) (linspace (N := RN) 0 (2 * PI) n)) = lsum (map (fun t => h * f t) (removelast (linspace (N := RN) 0 (2 * PI) n))).
Proof.
  intros Hn h Hp. rewrite trapez_trapz, !map_map. cbn [fst snd]. rewrite linspace_seq by exact Hn. rewrite Rminus_0_r. fold h. rewrite !map_map.
  assert (HN : 0 < INR (n - 1)) by (apply lt_0_INR; lia).
  destruct n as [|k]; [lia|]. replace (S k - 1)%nat with k in * by lia.
  rewrite (trapz_seq (fun i => f (0 + INR i * h)) (fun i => 0 + INR i * h)).
  rewrite seq_S, map_app. cbn [map]. rewrite removelast_last. rewrite map_map.
  assert (E : lsum (map (fun i => (0 + INR (S i) * h - (0 + INR i * h)) * (f (0 + INR (S i) * h) + f (0 + INR i * h)) / 2) (seq 0 k)) =
    h / 2 * (lsum (map (fun i => f (0 + INR (S i) * h)) (seq 0 k)) + lsum (map (fun i => f (0 + INR i * h)) (seq 0 k)))).
  { generalize (seq 0 k). intros l. induction l as [|i l IH]; [cbn; ring|]. cbn [map]. unfold lsum in *. cbn [fold_right]. rewrite IH. rewrite S_INR. field. }
  rewrite E. rewrite (lsum_shift (fun i => f (0 + INR i * h)) k). cbv beta.
  replace (0 + INR k * h) with (2 * PI) by (unfold h; replace (S k - 1)%nat with k by lia; field; lra). replace (0 + INR 0 * h) with 0 by (cbn [INR]; ring). rewrite Hp.
  replace (h / 2 * _) with (h * lsum (map (fun i => f (0 + INR i * h)) (seq 0 k))) by field.
  generalize (seq 0 k). intros l. induction l as [|i l IH]; [cbn; ring|]. cbn [map]. unfold lsum in *. cbn [fold_right]. rewrite <- IH. ring.
Qed.
Lemma sum2_lsum l : sum2 l = (lsum (map fst l), lsum (map snd l)).
Proof. induction l as [|a l IH]; [reflexivity|]. change (sum2 (a :: l)) with (add2 a (sum2 l)). rewrite IH. reflexivity. Qed.
Definition rvortices (yaw h : R) (ts : list (R * option R)) (s : R * R) : list rvort :=
  map (fun ts => {| rpos := (snd s * cos (fst ts) * cos yaw, snd s * sin (fst ts)); rG := fst s * sin yaw * sin (fst ts) * (snd s * h);
                    rs := match snd ts with Some e => e | None => 0 end |}) (removelast ts).
Lemma removelast_map {A B} (f : A -> B) l : removelast (map f l) = map f (removelast l).
Proof. induction l as [|a l IH]; [reflexivity|]. cbn [map]. destruct l as [|b l]; [reflexivity|]. cbn [map removelast] in *. f_equal. exact IH. Qed.
Lemma vortices_X yaw h ts s : main_vortices (N := XN) (Fin yaw) (Fin h) (map lth ts) (fin2 s) = map lift_v (rvortices yaw h ts s).
Proof.
  unfold main_vortices, rvortices. rewrite removelast_map, !map_map. apply map_ext. intros [t [e|]]; reflexivity.
Qed.
(** C101: the vortex-point integration returns the same numbers as the ellipse integral *)
Theorem C101_vortex_points_agree : forall yaw (n : nat) (sig : R -> option R) (bSmooth : bool) (surfaces : list (R * R)) (p : R * R),
  (2 <= n)%nat -> sig (2 * PI) = sig 0 -> (forall t, if bSmooth then exists e, sig t = Some e /\ e <> 0 else sig t = None) ->
  let thetas := map (fun t => (t, sig t)) (linspace (N := RN) 0 (2 * PI) n) in
  (forall s t, In s surfaces -> 1/1000000000000000 <= dist2 p (yz (rim_pt (snd s) yaw t))) ->
  exists u, main_an (N := XN) (Fin yaw) (map lth thetas) (map fin2 surfaces) (fin2 p) = fin2 u /\
            main_vp (N := XN) (Fin yaw) (map lth thetas) bSmooth (map fin2 surfaces) (fin2 p) = Ok (fin2 u).
Proof.
  intros yaw n sig b surfaces p Hn Hper Hsig thetas FAR. pose proof PI_RGT_0 as HP.
  assert (HN : 0 < INR (n - 1)) by (apply lt_0_INR; lia). set (h := 2 * PI / INR (n - 1)).
  assert (LT : len (map lth thetas) = n) by (unfold thetas; rewrite !map_length, linspace_seq, map_length, seq_length by exact Hn; reflexivity).
  unfold main_an, main_vp. rewrite LT. 
  assert (EH : ndiv XN (nmul XN (nZ XN 2) (npi XN)) (nZ XN (Z.of_nat n - 1)) = Fin h).
  { change (nZ XN (Z.of_nat n - 1)) with (Fin (IZR (Z.of_nat n - 1)) : XN). replace (Z.of_nat n - 1)%Z with (Z.of_nat (n - 1)) by lia. rewrite <- INR_IZR_INZ.
    change (nmul XN (nZ XN 2) (npi XN)) with (Fin (2 * PI) : XN). change (ndiv XN) with xdiv. rewrite xdiv_fin by lra. reflexivity. }
  rewrite EH. change (nZ XN 0, nZ XN 0) with (fin2 (0, 0)). generalize (0, 0) at 1 2. revert FAR.
  induction surfaces as [|[g r] ss IH]; intros FAR u0; [exists u0; split; reflexivity|].
  cbn [map fold_left]. change (snd (fin2 (g, r))) with (Fin r : XN). change (fst (fin2 (g, r))) with (Fin g : XN). rewrite shed_X, vortices_X.
  assert (NZ : forall t, sig t <> Some 0). { intros t E. specialize (Hsig t). destruct b; [destruct Hsig as (e & E1 & E2)|]; congruence. }
  assert (OFF : forall t, p <> yz (rim_pt r yaw t)).
  { intros t E. pose proof (FAR (g, r) t (or_introl eq_refl)) as F. cbn [snd] in F. rewrite E in F. unfold dist2 in F. rewrite !Rminus_eq_0, Rmult_0_l in F. lra. }
  rewrite ve_pt_X.
  2:{ intros nd Hnd. unfold thetas in Hnd. rewrite map_map in Hnd. apply in_map_iff in Hnd. destruct Hnd as (t & <- & _). apply NZ. }
  2:{ intros nd Hnd. unfold thetas in Hnd. rewrite map_map in Hnd. apply in_map_iff in Hnd. destruct Hnd as (t & <- & _). apply OFF. }
  set (w := (trapez _, trapez _)).
  assert (EV : vps_u (N := XN) (if b then 2 else 0) 2 2 2 [[fst (fin2 p); snd (fin2 p)]] (map lift_v (rvortices yaw h thetas (g, r))) = Ok [[Fin (fst w) : XN; Fin (snd w) : XN]]).
  { set (f := fun x : R => if b then 1 - 1 * exp (- x) else 1).
    assert (EI : forall t, induced f p {| rpos := (r * cos t * cos yaw, r * sin t); rG := g * sin yaw * sin t * (r * h); rs := match sig t with Some e => e | None => 0 end |} =
       (h * fst (kp r yaw p (rshed yaw g (t, sig t))), h * snd (kp r yaw p (rshed yaw g (t, sig t))))).
    { intros t. pose proof (FAR (g, r) t (or_introl eq_refl)) as F. cbn [snd] in F. change (r * cos t * cos yaw, r * sin t) with (yz (rim_pt r yaw t)).
      unfold induced, kp. cbn [rpos rG rs rshed rth rgam rsig fst snd]. destruct (Rlt_dec _ _) as [L|_]; [lra|].
      set (d := dist2 p (yz (rim_pt r yaw t))) in *. unfold scal2. cbn [fst snd].
      assert (EC : forall d, f (d / (match sig t with Some e => e | None => 0 end * match sig t with Some e => e | None => 0 end)) = core (sig t) d).
      { intros d'. unfold f. specialize (Hsig t). destruct b; [destruct Hsig as (e & -> & _)|rewrite Hsig]; unfold core; ring. }
      rewrite EC. set (cc := core _ _). f_equal; field; lra. }
    assert (ES : sum2 (map (induced f p) (rvortices yaw h thetas (g, r))) = w).
    { rewrite sum2_lsum. unfold rvortices, w, thetas. rewrite removelast_map, !map_map. cbn [fst snd rshed rth].
      change (map (fun x => (x, fst (kp r yaw p {| rth := x; rgam := g * sin yaw * sin x; rsig := sig x |}))) (linspace (N := RN) 0 (2 * PI) n))
        with (map (fun t => (t, fst (kp r yaw p (rshed yaw g (t, sig t))))) (linspace (N := RN) 0 (2 * PI) n)).
      rewrite (trapez_periodic (fun t => fst (kp r yaw p (rshed yaw g (t, sig t)))) n Hn), (trapez_periodic (fun t => snd (kp r yaw p (rshed yaw g (t, sig t)))) n Hn).
      - fold h. f_equal; f_equal; apply map_ext; intros t; rewrite EI; reflexivity.
      - unfold kp, rshed, rim_pt. cbn [rth rgam rsig fst snd]. rewrite Hper, sin_2PI, cos_2PI, sin_0, cos_0. reflexivity.
      - unfold kp, rshed, rim_pt. cbn [rth rgam rsig fst snd]. rewrite Hper, sin_2PI, cos_2PI, sin_0, cos_0. reflexivity. }
    assert (NV : b = true -> forall v, In v (rvortices yaw h thetas (g, r)) -> rs v <> 0).
    { intros -> v Hv. unfold rvortices, thetas in Hv. rewrite removelast_map, map_map in Hv. apply in_map_iff in Hv. destruct Hv as (t & <- & _). cbn [rs snd]. destruct (Hsig t) as (e & -> & He). exact He. }
    change [fst (fin2 p); snd (fin2 p)] with (row p). unfold vps_u, vps_dim_ok. cbn [Nat.eqb negb].
    change (repeat (nZ XN 0) 2) with (row (0, 0)).
    destruct b; cbn [vps_kernel Z.eqb Pos.eqb bind mapM].
    - rewrite (vps_row_X _ 2 f); [rewrite ES, add2_0_l; reflexivity| |intros _; apply NV; reflexivity].
      cbn [core_of Z.eqb Pos.eqb]. exists (fun _ => 1), (fun x => exp (- x)). repeat split; reflexivity.
    - rewrite (vps_row_X _ 2 f); [rewrite ES, add2_0_l; reflexivity| |intros K; exfalso; apply K; reflexivity].
      cbn [core_of]. intros x. reflexivity. }
  cbn [bind]. rewrite EV. cbn [bind]. 
  apply (IH (fun s t Hs => FAR s t (or_intror Hs)) (add2 u0 w)).
Qed.

(** ** C102: on the trailed lines *)
Lemma xadd_nan_r a : xadd a NaN = NaN. Proof. destruct a; reflexivity. Qed.
Lemma xadd_nan_l a : xadd NaN a = NaN. Proof. reflexivity. Qed.
Lemma xmul_nan_r a : xmul a NaN = NaN. Proof. destruct a; reflexivity. Qed.
Lemma trapz_nan (y x : list X) : len y = len x -> (2 <= len y)%nat -> In NaN y -> trapz (N := XN) y x = NaN.
Proof.
  revert x. induction y as [|y0 y IH]; intros x HL H2 HI; [cbn in H2; lia|].
  destruct y as [|y1 y]; [cbn in H2; lia|]. destruct x as [|x0 [|x1 x]]; try discriminate.
  change (trapz (N := XN) (y0 :: y1 :: y) (x0 :: x1 :: x)) with (xadd (xdiv (xmul (xsub x1 x0) (xadd y1 y0)) (Fin 2)) (trapz (N := XN) (y1 :: y) (x1 :: x))).
  assert (D : forall a, a = NaN -> xadd (xdiv (xmul (xsub x1 x0) a) (Fin 2)) (trapz (N := XN) (y1 :: y) (x1 :: x)) = NaN).
  { intros a ->. rewrite xmul_nan_r. reflexivity. }
  destruct HI as [->|[->|HI]].
  - apply D. apply xadd_nan_r.
  - apply D. reflexivity.
  - destruct y as [|y2 y]; [destruct HI|]. rewrite IH; [apply xadd_nan_r|cbn in *; lia|cbn in *; lia|right; exact HI].
Qed.
Lemma zero_weight g c (k : option R) : let w := xmul (Fin 0) (xmul (xdiv (Fin g) (Fin 0)) (smooth (N := XN) (option_map (fun s => Fin s : XN) k) (Fin c))) in c = 0 -> w = NaN.
Proof.
  intros w ->. unfold w.
  assert (G : xdiv (Fin g) (Fin 0) = NaN \/ xdiv (Fin g) (Fin 0) = PInf \/ xdiv (Fin g) (Fin 0) = MInf).
  { unfold xdiv. rewrite (proj2 (Reqb_true 0 0)) by reflexivity. unfold xinf_mul. destruct (Rltb 0 g), (Rltb g 0); auto. }
  assert (KS : smooth (N := XN) (option_map (fun s => Fin s : XN) k) (Fin 0) = Fin 1 \/ smooth (N := XN) (option_map (fun s => Fin s : XN) k) (Fin 0) = Fin 0 \/ smooth (N := XN) (option_map (fun s => Fin s : XN) k) (Fin 0) = NaN).
  { destruct k as [s|]; [|left; reflexivity]. right. cbn [option_map smooth]. xn. destruct (Req_dec (s * s) 0) as [E|E].
    - right. rewrite E. unfold xdiv. rewrite (proj2 (Reqb_true 0 0)) by reflexivity. unfold xinf_mul. rewrite !(proj2 (Rltb_false _ _)) by lra. reflexivity.
    - left. rewrite xdiv_fin by exact E. xn. replace (- 0 / (s * s)) with 0 by (field; intros H; apply E; rewrite H; ring). rewrite exp_0. f_equal. ring. }
  assert (Z : forall b, xinf_mul b 0 = NaN). { intros b. unfold xinf_mul. rewrite !(proj2 (Rltb_false 0 0)) by lra. reflexivity. }
  assert (ZF : forall b, xmul (Fin 0) (if b : bool then PInf else MInf) = NaN) by (intros [|]; cbn [xmul]; apply Z).
  destruct G as [->|[->| ->]]; destruct KS as [->|[->| ->]]; cbn [xmul]; rewrite ?Z; try reflexivity;
    unfold xinf_mul at 1; rewrite ?(proj2 (Rltb_true 0 1)), ?(proj2 (Rltb_false 1 0)) by lra; cbn [xinf_sgn negb xmul]; first [reflexivity | apply Z].
Qed.
(** whatever the smoothing lengths, one control point on a trailed line makes the velocity NaN there:
    the smoothed models are not finite where the smoothing is meant to act.  vps_u (C72) is finite *)
Theorem C102_on_the_lines_refuted : forall Rr yaw (nodes : list rnode) n, In n nodes -> (2 <= len nodes)%nat ->
  ve_u_pt (N := XN) (Fin Rr) (Fin yaw) (map lnode nodes) (fin2 (yz (rim_pt Rr yaw (rth n)))) = (NaN : XN, NaN : XN) /\
  forall s, 0 <= s ->
    vcl_u_pt (N := XN) (Fin Rr) (Fin yaw) (map lnode nodes) (xv (add3 (rim_pt Rr yaw (rth n)) (scal3 s ex))) = (NaN : XN, NaN : XN).
Proof.
  intros Rr yaw nodes n Hn H2. pose proof PI_RGT_0 as HP.
  set (x1 := - (Rr * cos (rth n) * sin yaw)). set (y1 := Rr * cos (rth n) * cos yaw). set (z1 := Rr * sin (rth n)).
  split.
  - unfold ve_u_pt. cbv zeta. rewrite !map_map.
    assert (E : ve_integrand (N := XN) (Fin Rr) (Fin yaw) (lnode n) (fst (fin2 (yz (rim_pt Rr yaw (rth n))))) (snd (fin2 (yz (rim_pt Rr yaw (rth n))))) = (NaN : XN, NaN : XN)).
    { unfold ve_integrand. cbn [nth_ ngam nsig lnode].
      change (fst (fin2 (yz (rim_pt Rr yaw (rth n))))) with (Fin y1 : XN). change (snd (fin2 (yz (rim_pt Rr yaw (rth n))))) with (Fin z1 : XN).
      change (nmul XN (nmul XN (Fin Rr) (ncos XN (Fin (rth n)))) (ncos XN (Fin yaw))) with (Fin y1 : XN).
      change (nmul XN (Fin Rr) (nsin XN (Fin (rth n)))) with (Fin z1 : XN). cbv zeta.
      change (nsub XN (Fin y1) (Fin y1)) with (Fin (y1 - y1) : XN). change (nsub XN (Fin z1) (Fin z1)) with (Fin (z1 - z1) : XN). rewrite !Rminus_eq_0.
      unfold sq. change (nmul XN (Fin 0) (Fin 0)) with (Fin (0 * 0) : XN). rewrite !Rmult_0_l. change (nadd XN (Fin 0) (Fin 0)) with (Fin (0 + 0) : XN). rewrite !Rplus_0_l.
      change (nopp XN (Fin 0)) with (Fin (- 0) : XN). rewrite Ropp_0.
      change (nmul XN) with xmul. change (ndiv XN) with xdiv. change (npi XN) with (Fin PI). change (nZ XN 2) with (Fin 2). cbn [xmul].
      rewrite (xdiv_fin _ (2 * PI)) by lra. f_equal; apply zero_weight; reflexivity. }
    f_equal; apply trapz_nan; rewrite ?map_length; auto; apply in_map_iff; exists n; (split; [|exact Hn]); (etransitivity; [apply f_equal; exact E|reflexivity]).
  - intros s Hs. unfold vcl_u_pt, xv. cbv zeta. rewrite !map_map.
    set (qx := px (add3 _ _)). set (qy := py (add3 _ _)). set (qz := pz (add3 _ _)).
    assert (E : vcl_integrand (N := XN) (Fin Rr) (Fin yaw) (lnode n) (Fin qx) (Fin qy) (Fin qz) = (NaN : XN, NaN : XN)).
    { assert (Ex : qx - x1 = s) by (unfold qx, add3, scal3, ex, rim_pt, px, py, pz; cbn [fst snd]; unfold x1; ring).
      assert (Ey : qy = y1) by (unfold qy, add3, scal3, ex, rim_pt, px, py, pz; cbn [fst snd]; unfold y1; ring).
      assert (Ez : qz = z1) by (unfold qz, add3, scal3, ex, rim_pt, px, py, pz; cbn [fst snd]; unfold z1; ring).
      rewrite Ey, Ez. unfold vcl_integrand. cbn [nth_ ngam nsig lnode].
      change (nmul XN (nmul XN (nopp XN (Fin Rr)) (ncos XN (Fin (rth n)))) (nsin XN (Fin yaw))) with (Fin (- Rr * cos (rth n) * sin yaw) : XN).
      replace (- Rr * cos (rth n) * sin yaw) with x1 by (unfold x1; ring).
      change (nmul XN (nmul XN (Fin Rr) (ncos XN (Fin (rth n)))) (ncos XN (Fin yaw))) with (Fin y1 : XN).
      change (nmul XN (Fin Rr) (nsin XN (Fin (rth n)))) with (Fin z1 : XN). cbv zeta.
      change (nsub XN (Fin y1) (Fin y1)) with (Fin (y1 - y1) : XN). change (nsub XN (Fin z1) (Fin z1)) with (Fin (z1 - z1) : XN). change (nsub XN (Fin qx) (Fin x1)) with (Fin (qx - x1) : XN). rewrite !Rminus_eq_0, Ex.
      unfold sq. change (nmul XN (Fin 0) (Fin 0)) with (Fin (0 * 0) : XN). rewrite !Rmult_0_l. change (nmul XN (Fin s) (Fin s)) with (Fin (s * s) : XN).
      change (nadd XN (Fin 0) (Fin 0)) with (Fin (0 + 0) : XN). change (nadd XN (nadd XN (Fin (s * s)) (Fin 0)) (Fin 0)) with (Fin (s * s + 0 + 0) : XN). rewrite !Rplus_0_r.
      change (nsqrt XN) with xsqrt. rewrite xsqrt_fin by (apply Rsq_pos). rewrite sqrt_square by exact Hs.
      change (nsub XN (Fin s) (Fin s)) with (Fin (s - s) : XN). rewrite Rminus_eq_0. change (nmul XN (Fin s) (Fin 0)) with (Fin (s * 0) : XN). rewrite Rmult_0_r.
      change (nmul XN) with xmul. change (ndiv XN) with xdiv. change (npi XN) with (Fin PI). change (nZ XN 4) with (Fin 4). cbn [xmul].
      rewrite (xdiv_fin _ (4 * PI)) by lra. f_equal; apply zero_weight; reflexivity. }
    f_equal; apply trapz_nan; rewrite ?map_length; auto; apply in_map_iff; exists n; (split; [|exact Hn]); (etransitivity; [apply f_equal; exact E|reflexivity]).
Qed.

(** ** The hypotheses are met *)
(** a yawed disk, three rays, one with smoothing, and a point inside the disk *)
Example C100_case : forall n, In n [ {| rth := 0; rgam := 1; rsig := None |}; {| rth := PI / 2; rgam := 2; rsig := Some 1 |}; {| rth := PI; rgam := -1; rsig := None |} ] ->
  core_ok n /\ off_trail 2 0 (1, 0, 0) n /\ (0, 0) <> yz (rim_pt 2 0 (rth n)).
Proof.
  assert (K : forall n, 0 * 0 + 0 * 0 < dist2 (0, 0) (yz (rim_pt 2 0 (rth n)))).
  { intros n. unfold dist2, yz, rim_pt, py, pz. cbn [fst snd]. rewrite cos_0. pose proof (sin2_cos2 (rth n)) as SC. unfold Rsqr in SC. nra. }
  intros n Hn. assert (NE : (0, 0) <> yz (rim_pt 2 0 (rth n))).
  { intros E. specialize (K n). rewrite <- E in K. unfold dist2 in K. cbn [fst snd] in K. lra. }
  split; [|split; [|exact NE]].
  - unfold core_ok. destruct Hn as [<-|[<-|[<-|[]]]]; cbn [rsig]; intros E; try discriminate. injection E. lra.
  - apply off_axis_trail. exact NE.
Qed.
Example C101_case : forall t, 1/1000000000000000 <= dist2 (0, 0) (yz (rim_pt 2 0 t)).
Proof. intros t. unfold dist2, yz, rim_pt, py, pz. cbn [fst snd]. rewrite cos_0. pose proof (sin2_cos2 t) as SC. unfold Rsqr in SC. nra. Qed.
