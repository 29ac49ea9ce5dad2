(** * C82, C83: the skewed-cylinder quadratures converge to the Biot-Savart integral over the sheet *)
From Coquelicot Require Import Coquelicot.
From Coq Require Import ZArith List Bool Arith Lia String Reals Lra Psatz.
From Verif Require Import Num NumR NumX M_Elliptic M_Line M_Cylinder M_Doublet M_Skewed L_List L_X L_Angles L_Built Spec SpecBS L_Calc L_Ell P_Line P_Doublet P_Skewed P_Polar.
Import ListNotations.
Local Open Scope R_scope.

(** ** The trapezoidal rule converges *)
Lemma panel (f : R -> R) a h e : 0 <= h -> (forall x, continuous f x) ->
  (forall x, a <= x <= a + h -> Rabs (f x - f a) <= e /\ Rabs (f x - f (a + h)) <= e) ->
  Rabs (RInt f a (a + h) - h * ((f a + f (a + h)) / 2)) <= e * h.
Proof.
  intros Hh Hc B. set (k := (f a + f (a + h)) / 2).
  assert (I : is_RInt (fun t => f t - k) a (a + h) (RInt f a (a + h) - h * k)).
  { replace (h * k) with ((a + h - a) * k) by ring.
    apply (is_RInt_minus f (fun _ => k) a (a + h) (RInt f a (a + h)) ((a + h - a) * k)).
    - apply cont_is_RInt, Hc.
    - apply (is_RInt_const a (a + h) k). }
  assert (K : Rabs (RInt f a (a + h) - h * k) <= (a + h - a) * e).
  { apply (norm_RInt_le_const (fun t => f t - k) a (a + h) (RInt f a (a + h) - h * k) e); [lra| |exact I].
    intros x Hx. destruct (B x Hx) as [B1 B2]. change (Rabs (f x - k) <= e). unfold k.
    replace (f x - (f a + f (a + h)) / 2) with ((f x - f a) / 2 + (f x - f (a + h)) / 2) by field.
    apply Rabs_le_between in B1. apply Rabs_le_between in B2. apply Rabs_le_between. lra. }
  eapply Rle_trans; [exact K|]. lra.
Qed.
Lemma panels (f : R -> R) t0 h e k : 0 <= h -> (forall x, continuous f x) ->
  (forall x y, t0 <= x <= t0 + INR k * h -> t0 <= y <= t0 + INR k * h -> Rabs (x - y) <= h -> Rabs (f x - f y) <= e) ->
  Rabs (RInt f t0 (t0 + INR k * h) - lsum (map (fun i => h * ((f (t0 + INR i * h) + f (t0 + INR (S i) * h)) / 2)) (seq 0 k))) <= e * (INR k * h).
Proof.
  intros Hh Hc. induction k as [|k IH]; intros B.
  - replace (t0 + INR 0 * h) with t0 by (change (INR 0) with 0; ring).
    assert (E : RInt f t0 t0 = 0) by (apply RInt_val; exact (@is_RInt_point R_NormedModule f t0)). rewrite E.
    change (lsum (map _ (seq 0 0))) with 0. change (INR 0) with 0. rewrite Rminus_0_r, Rabs_R0. lra.
  - pose proof (pos_INR k) as Hk. assert (Hkh : 0 <= INR k * h) by (apply Rmult_le_pos; auto).
    assert (ES : t0 + INR (S k) * h = t0 + INR k * h + h) by (rewrite S_INR; ring).
    assert (IHk : Rabs (RInt f t0 (t0 + INR k * h) - lsum (map (fun i => h * ((f (t0 + INR i * h) + f (t0 + INR (S i) * h)) / 2)) (seq 0 k))) <= e * (INR k * h)).
    { apply IH. intros x y Hx Hy. apply B; rewrite ES; lra. }
    assert (P := panel f (t0 + INR k * h) h e Hh Hc). rewrite <- ES in P.
    specialize (P ltac:(intros x Hx; split; apply B; try lra; apply Rabs_le_between; lra)).
    assert (C : RInt f t0 (t0 + INR (S k) * h) = RInt f t0 (t0 + INR k * h) + RInt f (t0 + INR k * h) (t0 + INR (S k) * h)).
    { symmetry. apply (@RInt_Chasles R_CompleteNormedModule); apply cont_ex_RInt, Hc. }
    rewrite C. rewrite seq_S, map_app. unfold lsum in *. rewrite fold_right_app. cbn [map fold_right plus].
    assert (FA : forall l (a : R), fold_right Rplus a l = fold_right Rplus 0 l + a).
    { induction l as [|b l IHl]; intros a; cbn; [ring|]. rewrite IHl. ring. }
    rewrite FA. rewrite Rplus_0_r. change (0 + k)%nat with k.
    apply Rabs_le_between in IHk. apply Rabs_le_between in P. apply Rabs_le_between.
    assert (EE : e * (INR (S k) * h) = e * (INR k * h) + e * h) by (rewrite S_INR; ring). rewrite EE. revert IHk P. generalize (RInt f t0 (t0 + INR k * h)), (RInt f (t0 + INR k * h) (t0 + INR (S k) * h)), (h * ((f (t0 + INR k * h) + f (t0 + INR (S k) * h)) / 2)). intros; lra.
Qed.
Theorem trapezoid_err (f : R -> R) t0 T n e d : (2 <= n)%nat -> 0 < T -> (forall x, continuous f x) ->
  (forall x y, t0 <= x <= t0 + T -> t0 <= y <= t0 + T -> Rabs (x - y) < d -> Rabs (f x - f y) < e) -> T / INR (n - 1) < d ->
  Rabs (RInt f t0 (t0 + T) - trapezoid f t0 T n) <= e * T.
Proof.
  intros Hn HT Hc B Hd. set (h := T / INR (n - 1)). assert (Hk : 0 < INR (n - 1)) by (apply lt_0_INR; lia).
  assert (ET : INR (n - 1) * h = T) by (unfold h; field; lra).
  assert (Hh : 0 <= h) by (unfold h; apply Rlt_le, Rdiv_lt_0_compat; auto).
  pose proof (panels f t0 h e (n - 1) Hh Hc) as P. rewrite ET in P. apply P.
  intros x y Hx Hy Hxy. left. apply B; auto. unfold h in Hxy. lra.
Qed.
(** ... uniformly in the starting point: the code's longitudinal routine starts at pi/n *)
Theorem trapezoid_converges (f : R -> R) lo hi T : 0 < T -> (forall x, continuous f x) ->
  forall eps, 0 < eps -> exists M, forall n t0, (M <= n)%nat -> lo <= t0 -> t0 + T <= hi -> Rabs (RInt f t0 (t0 + T) - trapezoid f t0 T n) <= eps.
Proof.
  intros HT Hc eps He.
  assert (Cp : forall x, lo <= x <= hi -> continuity_pt f x) by (intros x _; apply continuity_pt_filterlim, Hc).
  destruct (@Heine_cor2 f lo hi Cp (mkposreal (eps / T) (Rdiv_lt_0_compat _ _ He HT))) as [d Hd].
  cbn [pos] in Hd. destruct d as [d d0]. cbn [pos] in Hd.
  destruct (nfloor_ex (T / d)) as [k [_ K]]; [apply Rlt_le, Rdiv_lt_0_compat; auto|].
  exists (S (S k)). intros n t0 Hn H1 H2. replace eps with (eps / T * T) by (field; lra). apply (trapezoid_err f t0 T n _ d); auto; [lia| |].
  - intros x y Hx Hy Hxy. apply Hd; auto; lra.
  - assert (KN : INR k + 1 <= INR (n - 1)) by (rewrite <- S_INR; apply le_INR; lia). pose proof (pos_INR k).
    apply Rmult_lt_reg_r with (INR (n - 1)); [lra|]. unfold Rdiv. rewrite Rmult_assoc, Rinv_l, Rmult_1_r by lra.
    apply Rmult_lt_reg_r with (/ d); [apply Rinv_0_lt_compat; auto|].
    replace (d * INR (n - 1) * / d) with (INR (n - 1)) by (field; lra). change (T * / d) with (T / d). lra.
Qed.
Lemma periodic_start (f : R -> R) p v : (forall x, continuous f x) -> (forall x, f (x + p) = f x) -> RInt f v (v + p) = RInt f 0 p.
Proof.
  intros Hc Hp. rewrite <- (RInt_periodic f p v Hc Hp). rewrite RInt_shift by auto. f_equal; ring.
Qed.

(** [V n] tends to [u], component by component *)
Definition tends3 (V : nat -> R3) (u : R3) : Prop :=
  each3 (fun c => is_lim_seq (fun n => c (V n)) (Finite (c u))).
Lemma tends3_intro (V : nat -> R3) u : (forall eps, 0 < eps -> exists M, forall n, (M <= n)%nat -> each3 (fun c => Rabs (c u - c (V n)) <= eps)) -> tends3 V u.
Proof.
  intros H. assert (K : forall c : R3 -> R, (forall eps, 0 < eps -> exists M, forall n, (M <= n)%nat -> Rabs (c u - c (V n)) <= eps) -> is_lim_seq (fun n => c (V n)) (Finite (c u))).
  { intros c Hc. apply is_lim_seq_spec. intros [e He]. cbn [pos]. destruct (Hc (e / 2) ltac:(lra)) as [M HM]. exists M. intros n Hn. specialize (HM n Hn). rewrite Rabs_minus_sym in HM. lra. }
  split; [|split]; apply K; intros eps He; destruct (H eps He) as [M HM]; exists M; intros n Hn; destruct (HM n Hn) as (A & B & C); auto.
Qed.
Lemma trap3 (F : R -> R3) (t0 : nat -> R) lo hi u : each3 (fun c => forall x, continuous (fun t => c (F t)) x) -> each3 (fun c => forall x, c (F (x + 2 * PI)) = c (F x)) ->
  (forall n, (2 <= n)%nat -> lo <= t0 n /\ t0 n + 2 * PI <= hi) -> each3 (fun c => is_RInt (fun t => c (F t)) 0 (2 * PI) (c u)) ->
  tends3 (fun n => (trapezoid (fun t => px (F t)) (t0 n) (2 * PI) n, trapezoid (fun t => py (F t)) (t0 n) (2 * PI) n, trapezoid (fun t => pz (F t)) (t0 n) (2 * PI) n)) u.
Proof.
  intros (C1 & C2 & C3) (P1 & P2 & P3) HB (I1 & I2 & I3). pose proof PI_RGT_0.
  assert (K : forall f v, (forall x, continuous f x) -> (forall x, f (x + 2 * PI) = f x) -> is_RInt f 0 (2 * PI) v ->
     forall eps, 0 < eps -> exists M, forall n, (M <= n)%nat -> Rabs (v - trapezoid f (t0 n) (2 * PI) n) <= eps).
  { intros f v Hc Hp Hi eps He. destruct (trapezoid_converges f lo hi (2 * PI) ltac:(lra) Hc eps He) as [M HM]. exists (max M 2). intros n Hn.
    destruct (HB n ltac:(lia)) as [B1 B2]. specialize (HM n (t0 n) ltac:(lia) B1 B2). rewrite (periodic_start f (2 * PI) (t0 n) Hc Hp) in HM.
    rewrite (RInt_val _ _ _ _ Hi) in HM. exact HM. }
  apply tends3_intro. intros eps He.
  destruct (K _ _ C1 P1 I1 eps He) as [M1 H1]. destruct (K _ _ C2 P2 I2 eps He) as [M2 H2]. destruct (K _ _ C3 P3 I3 eps He) as [M3 H3].
  exists (max M1 (max M2 M3)). intros n Hn. split; [|split]; [apply H1|apply H2|apply H3]; lia.
Qed.

(** ** The tangential sheet *)
Lemma row_unique g Rr m th x u v : ring_row_velocity g Rr m th x u -> ring_row_velocity g Rr m th x v -> u = v.
Proof.
  intros (A1 & A2 & A3) (B1 & B2 & B3).
  pose proof (is_RInt_gen_unique _ _ A1). pose proof (is_RInt_gen_unique _ _ A2). pose proof (is_RInt_gen_unique _ _ A3).
  pose proof (is_RInt_gen_unique _ _ B1). pose proof (is_RInt_gen_unique _ _ B2). pose proof (is_RInt_gen_unique _ _ B3).
  destruct u as [[u1 u2] u3], v as [[v1 v2] v3]. unfold px, py, pz in *. cbn in *. congruence.
Qed.
Lemma each3_RInt_unique (F G : R -> R3) a b u v : (forall t, F t = G t) -> each3 (fun c => is_RInt (fun t => c (F t)) a b (c u)) -> each3 (fun c => is_RInt (fun t => c (G t)) a b (c v)) -> u = v.
Proof.
  intros E (A1 & A2 & A3) (B1 & B2 & B3).
  assert (K : forall (c : R3 -> R), is_RInt (fun t => c (F t)) a b (c u) -> is_RInt (fun t => c (G t)) a b (c v) -> c u = c v).
  { intros c HA HB. rewrite <- (RInt_val _ _ _ _ HA). rewrite <- (RInt_val _ _ _ _ HB). apply (@RInt_ext R_CompleteNormedModule). intros t _. rewrite E. reflexivity. }
  pose proof (K px A1 B1) as E1. pose proof (K py A2 B2) as E2. pose proof (K pz A3 B3) as E3.
  destruct u as [[u1 u2] u3], v as [[v1 v2] v3]. unfold px, py, pz in E1, E2, E3. cbn [fst snd] in E1, E2, E3. congruence.
Qed.
Lemma sheet_unique g Rr m x u v : sheet_velocity g Rr m x u -> sheet_velocity g Rr m x v -> u = v.
Proof.
  intros (F & HF & IF) (G & HG & IG). apply (each3_RInt_unique F G 0 (2 * PI)); auto. intros t. apply (row_unique g Rr m t x); auto.
Qed.
Lemma row_cont g Rr m r psi z : off_sheet Rr m (r * cos psi, r * sin psi, z) ->
  each3 (fun c => forall x, continuous (fun th => c (row_u g Rr m th (r * cos psi, r * sin psi, z))) x).
Proof.
  intros OFF.
  assert (RC : forall th, _) by (intros th; exact (row_closed g Rr m th r psi z ltac:(intros s Hs; apply OFF; auto))). cbv zeta in RC.
  pose proof (Rsq_pos m). pose proof PI_RGT_0.
  assert (K : forall (a b : R -> R) th, ex_derive a th -> ex_derive b th ->
    continuous (fun th => (a th * sqrt (1 + m * m) + b th * sqrt (Rr * Rr + r * r + z * z - 2 * Rr * r * cos (th - psi))) *
        (2 * g / (4 * PI) / (sqrt (Rr * Rr + r * r + z * z - 2 * Rr * r * cos (th - psi)) * (2 * sqrt ((Rr * Rr + r * r + z * z - 2 * Rr * r * cos (th - psi)) * (1 + m * m)) + (2 * m * Rr * cos th - 2 * m * r * cos psi - 2 * z))))) th).
  { intros a b th Da Db. destruct (RC th) as (A0 & D0 & _). apply (@ex_derive_continuous R_AbsRing R_NormedModule).
    assert (0 < sqrt (Rr * Rr + r * r + z * z - 2 * Rr * r * cos (th - psi))) by (apply sqrt_lt_R0; auto).
    assert (0 < (Rr * Rr + r * r + z * z - 2 * Rr * r * cos (th - psi)) * (1 + m * m)) by (apply Rmult_lt_0_compat; lra).
    auto_derive. repeat split; auto.
    apply Rmult_integral_contrapositive_currified; [apply Rgt_not_eq; assumption|exact D0]. }
  split; [|split]; intros x.
  - apply (continuous_ext (fun th => (Rr * z * cos th * sqrt (1 + m * m) + - Rr * cos th * sqrt (Rr * Rr + r * r + z * z - 2 * Rr * r * cos (th - psi))) *
        (2 * g / (4 * PI) / (sqrt (Rr * Rr + r * r + z * z - 2 * Rr * r * cos (th - psi)) * (2 * sqrt ((Rr * Rr + r * r + z * z - 2 * Rr * r * cos (th - psi)) * (1 + m * m)) + (2 * m * Rr * cos th - 2 * m * r * cos psi - 2 * z)))))).
    + intros th. destruct (RC th) as (_ & _ & E). rewrite E. reflexivity.
    + apply (K (fun th => Rr * z * cos th) (fun th => - Rr * cos th)); auto_derive; auto.
  - apply (continuous_ext (fun th => (Rr * z * sin th * sqrt (1 + m * m) + - Rr * sin th * sqrt (Rr * Rr + r * r + z * z - 2 * Rr * r * cos (th - psi))) *
        (2 * g / (4 * PI) / (sqrt (Rr * Rr + r * r + z * z - 2 * Rr * r * cos (th - psi)) * (2 * sqrt ((Rr * Rr + r * r + z * z - 2 * Rr * r * cos (th - psi)) * (1 + m * m)) + (2 * m * Rr * cos th - 2 * m * r * cos psi - 2 * z)))))).
    + intros th. destruct (RC th) as (_ & _ & E). rewrite E. reflexivity.
    + apply (K (fun th => Rr * z * sin th) (fun th => - Rr * sin th)); auto_derive; auto.
  - apply (continuous_ext (fun th => (Rr * (Rr - r * cos (th - psi)) * sqrt (1 + m * m) + Rr * m * cos th * sqrt (Rr * Rr + r * r + z * z - 2 * Rr * r * cos (th - psi))) *
        (2 * g / (4 * PI) / (sqrt (Rr * Rr + r * r + z * z - 2 * Rr * r * cos (th - psi)) * (2 * sqrt ((Rr * Rr + r * r + z * z - 2 * Rr * r * cos (th - psi)) * (1 + m * m)) + (2 * m * Rr * cos th - 2 * m * r * cos psi - 2 * z)))))).
    + intros th. destruct (RC th) as (_ & _ & E). rewrite E. reflexivity.
    + apply (K (fun th => Rr * (Rr - r * cos (th - psi))) (fun th => Rr * m * cos th)); auto_derive; auto.
Qed.
Lemma cos_per x : cos (x + 2 * PI) = cos x.
Proof. pose proof (cos_period x 1) as P. rewrite <- P. f_equal. cbn. ring. Qed.
Lemma sin_per x : sin (x + 2 * PI) = sin x.
Proof. pose proof (sin_period x 1) as P. rewrite <- P. f_equal. cbn. ring. Qed.
Lemma row_per g Rr m x th : row_u g Rr m (th + 2 * PI) x = row_u g Rr m th x.
Proof. unfold row_u. rewrite cos_per, sin_per. reflexivity. Qed.
(** C82: as the number of points on the circumference grows, what the code returns tends to the Biot-Savart integral
    over the whole skewed sheet, at every point that is not on the sheet *)
Theorem C82_tangential_converges : forall g Rr m r psi z, let x := (r * cos psi, r * sin psi, z) in off_sheet Rr m x ->
  exists (u : R3) (V W : nat -> R3), sheet_velocity g Rr m x u /\
    (forall n, (2 <= n)%nat -> svc_tang_u_polar (N := XN) (Fin g) (Fin Rr) (Fin m) n false (Fin r, Fin psi, Fin z) = xv (V n)) /\
    (forall n, (2 <= n)%nat -> svc_tang_u_polar (N := XN) (Fin g) (Fin Rr) (Fin m) n true (Fin r, Fin psi, Fin z) = xv (W n)) /\
    tends3 V u /\ tends3 W (px u * cos psi + py u * sin psi, - px u * sin psi + py u * cos psi, pz u).
Proof.
  intros g Rr m r psi z x OFF. pose proof PI_RGT_0 as HP. set (F := fun th => row_u g Rr m th x). pose (I := fun c : R3 -> R => RInt (fun th => c (F th)) 0 (2 * PI)).
  pose (T := fun (f : R -> R) n => trapezoid f (PI / 2) (2 * PI) n).
  destruct (row_cont g Rr m r psi z OFF) as (C1 & C2 & C3). fold x in C1, C2, C3.
  exists (I px, I py, I pz), (fun n => (T (fun th => px (F th)) n, T (fun th => py (F th)) n, T (fun th => pz (F th)) n)),
    (fun n => (T (fun th => px (F th) * cos psi + py (F th) * sin psi) n, T (fun th => - px (F th) * sin psi + py (F th) * cos psi) n, T (fun th => pz (F th)) n)).
  assert (II : each3 (fun c => is_RInt (fun th => c (F th)) 0 (2 * PI) (c (I px, I py, I pz)))).
  { split; [change (is_RInt (fun th => px (F th)) 0 (2 * PI) (I px))|split; [change (is_RInt (fun th => py (F th)) 0 (2 * PI) (I py))|change (is_RInt (fun th => pz (F th)) 0 (2 * PI) (I pz))]]; apply cont_is_RInt; auto. }
  assert (FX : forall n, (2 <= n)%nat -> forall H, (forall th, ring_row_velocity g Rr m th x (H th)) -> forall th, H th = F th).
  { intros n Hn H HH th. apply (row_unique g Rr m th x); [apply HH|]. apply row_velocity. intros s Hs. apply OFF. auto. }
  split; [|split; [|split; [|split]]].
  - exists F. split; auto. intros th. apply row_velocity. intros s Hs. apply OFF. auto.
  - intros n Hn. destruct (C76_tangential_is_trapezoid_of_biot_savart_rows g Rr m r psi z n Hn OFF) as (H & HH & E & _). rewrite E.
    pose proof (FX n Hn H HH) as EF. unfold T. f_equal. apply tri; apply trapezoid_ext; intros t; rewrite EF; reflexivity.
  - intros n Hn. destruct (C76_tangential_is_trapezoid_of_biot_savart_rows g Rr m r psi z n Hn OFF) as (H & HH & _ & E). rewrite E.
    pose proof (FX n Hn H HH) as EF. unfold T. f_equal. apply tri; apply trapezoid_ext; intros t; rewrite EF; reflexivity.
  - apply (trap3 F (fun _ => PI / 2) 0 (3 * PI)); auto; [split; [|split]; auto|split; [|split]; intros t; unfold F; rewrite row_per; reflexivity|intros; lra].
  - pose (G := fun th => (px (F th) * cos psi + py (F th) * sin psi, - px (F th) * sin psi + py (F th) * cos psi, pz (F th)) : R3).
    apply (trap3 G (fun _ => PI / 2) 0 (3 * PI)); [ |split; [|split]; intros t; unfold G, F; rewrite row_per; reflexivity|intros; lra|].
    + assert (KC : forall (f h : R -> R) (a b t : R), continuous f t -> continuous h t -> continuous (fun th => f th * a + h th * b) t).
      { intros f h a b t Hf Hh. apply (continuous_plus (fun th => f th * a) (fun th => h th * b)); apply (@continuous_mult R_UniformSpace R_AbsRing); auto; apply continuous_const. }
      split; [|split]; intros t; [change (continuous (fun th => px (F th) * cos psi + py (F th) * sin psi) t)|change (continuous (fun th => - px (F th) * sin psi + py (F th) * cos psi) t)|change (continuous (fun th => pz (F th)) t)]; auto.
      apply (KC (fun th => - px (F th)) (fun th => py (F th))); auto. apply (continuous_opp (fun th => px (F th))). auto.
    + destruct II as (I1 & I2 & I3). change (px (I px, I py, I pz)) with (I px) in *. change (py (I px, I py, I pz)) with (I py) in *. change (pz (I px, I py, I pz)) with (I pz) in *.
      assert (KI : forall (f h : R -> R) (a b u v : R), is_RInt f 0 (2 * PI) u -> is_RInt h 0 (2 * PI) v -> is_RInt (fun th => f th * a + h th * b) 0 (2 * PI) (u * a + v * b)).
      { intros f h a b u v Hf Hh. apply (is_RInt_plus (fun th => f th * a) (fun th => h th * b) 0 (2 * PI) (u * a) (v * b)).
        - apply (is_RInt_ext (fun th => scal a (f th))); [intros; apply Rmult_comm|]. replace (u * a) with (scal a u) by apply Rmult_comm. apply (is_RInt_scal f _ _ a u Hf).
        - apply (is_RInt_ext (fun th => scal b (h th))); [intros; apply Rmult_comm|]. replace (v * b) with (scal b v) by apply Rmult_comm. apply (is_RInt_scal h _ _ b v Hh). }
      split; [change (is_RInt (fun th => px (F th) * cos psi + py (F th) * sin psi) 0 (2 * PI) (I px * cos psi + I py * sin psi))|split;
        [change (is_RInt (fun th => - px (F th) * sin psi + py (F th) * cos psi) 0 (2 * PI) (- I px * sin psi + I py * cos psi))|exact I3]]; auto.
      apply (KI (fun th => - px (F th)) (fun th => py (F th))); auto. apply (is_RInt_opp (fun th => px (F th)) 0 (2 * PI) (I px)). auto.
Qed.

(** ** The longitudinal sheet *)
Lemma kline_cont g Rr m r psi z : 0 < Rr -> off_sheet Rr m (r * cos psi, r * sin psi, z) ->
  each3 (fun c => forall x, continuous (fun th => c (klineR (g * Rr) (skew_dir m) (sub3 (r * cos psi, r * sin psi, z) (Rr * cos th, Rr * sin th, 0)))) x).
Proof.
  intros HR OFF. pose proof (Rsq_pos m). pose proof PI_RGT_0.
  assert (RC : forall th, _) by (intros th; exact (kline_sheet g Rr m th r psi z HR OFF)). cbv zeta in RC. 
  set (r' := r / Rr) in *. set (z' := z / Rr) in *.
  assert (K : forall (a : R -> R) th, ex_derive a th ->
    continuous (fun th => g / (4 * PI) / (sqrt (1 + r' * r' + z' * z' - 2 * r' * cos (th - psi)) * (- z' + m * cos th + sqrt (1 + m * m) * sqrt (1 + r' * r' + z' * z' - 2 * r' * cos (th - psi)) - m * r' * cos psi)) * a th) th).
  { intros a th Da. destruct (RC th) as (A0 & D0 & _). apply (@ex_derive_continuous R_AbsRing R_NormedModule).
    assert (0 < 1 + r' * r' + z' * z' - 2 * r' * cos (th - psi)).
    { apply Rnot_le_lt. intros N. rewrite sqrt_neg_0 in A0 by auto. lra. }
    auto_derive. repeat split; auto. apply Rgt_not_eq, Rmult_lt_0_compat; auto. }
  split; [|split]; intros x.
  - apply (continuous_ext (fun th => g / (4 * PI) / (sqrt (1 + r' * r' + z' * z' - 2 * r' * cos (th - psi)) * (- z' + m * cos th + sqrt (1 + m * m) * sqrt (1 + r' * r' + z' * z' - 2 * r' * cos (th - psi)) - m * r' * cos psi)) * (sin th - r' * sin psi))).
    + intros th. destruct (RC th) as (_ & _ & E). rewrite E. reflexivity.
    + apply (K (fun th => sin th - r' * sin psi)); auto_derive; auto.
  - apply (continuous_ext (fun th => g / (4 * PI) / (sqrt (1 + r' * r' + z' * z' - 2 * r' * cos (th - psi)) * (- z' + m * cos th + sqrt (1 + m * m) * sqrt (1 + r' * r' + z' * z' - 2 * r' * cos (th - psi)) - m * r' * cos psi)) * (- m * z' - cos th + r' * cos psi))).
    + intros th. destruct (RC th) as (_ & _ & E). rewrite E. reflexivity.
    + apply (K (fun th => - m * z' - cos th + r' * cos psi)); auto_derive; auto.
  - apply (continuous_ext (fun th => g / (4 * PI) / (sqrt (1 + r' * r' + z' * z' - 2 * r' * cos (th - psi)) * (- z' + m * cos th + sqrt (1 + m * m) * sqrt (1 + r' * r' + z' * z' - 2 * r' * cos (th - psi)) - m * r' * cos psi)) * (m * (- sin th + r' * sin psi)))).
    + intros th. destruct (RC th) as (_ & _ & E). rewrite E. reflexivity.
    + apply (K (fun th => m * (- sin th + r' * sin psi))); auto_derive; auto.
Qed.
(** C82 for the longitudinal sheet: half lines along the skewed axis from every point of the circle *)
Theorem C82_longitudinal_converges : forall g Rr m r psi z, 0 < Rr -> let x := (r * cos psi, r * sin psi, z) in off_sheet Rr m x ->
  exists (u : R3) (F : R -> R3) (V : nat -> R3),
    (forall th, half_line_velocity (g * Rr) (Rr * cos th, Rr * sin th, 0) (sin (atan m), 0, cos (atan m)) x (F th)) /\
    each3 (fun c => is_RInt (fun th => c (F th)) 0 (2 * PI) (c u)) /\
    (forall n, (2 <= n)%nat -> svc_longi_u_polar (N := XN) (Fin g) (Fin Rr) (Fin m) n false (Fin r, Fin psi, Fin z) = xv (V n)) /\
    tends3 V u.
Proof.
  intros g Rr m r psi z HR x OFF. pose proof PI_RGT_0 as HP. set (F := fun th => klineR (g * Rr) (skew_dir m) (sub3 x (Rr * cos th, Rr * sin th, 0))).
  pose (I := fun c : R3 -> R => RInt (fun th => c (F th)) 0 (2 * PI)).
  pose (T := fun (f : R -> R) n => trapezoid f (PI / INR n) (2 * PI) n).
  destruct (kline_cont g Rr m r psi z HR OFF) as (C1 & C2 & C3). fold x in C1, C2, C3.
  exists (I px, I py, I pz), F, (fun n => (T (fun th => px (F th)) n, T (fun th => py (F th)) n, T (fun th => pz (F th)) n)).
  assert (II : each3 (fun c => is_RInt (fun th => c (F th)) 0 (2 * PI) (c (I px, I py, I pz)))).
  { split; [change (is_RInt (fun th => px (F th)) 0 (2 * PI) (I px))|split; [change (is_RInt (fun th => py (F th)) 0 (2 * PI) (I py))|change (is_RInt (fun th => pz (F th)) 0 (2 * PI) (I pz))]]; apply cont_is_RInt; auto. }
  assert (HF : forall th, half_line_velocity (g * Rr) (Rr * cos th, Rr * sin th, 0) (sin (atan m), 0, cos (atan m)) x (F th)).
  { intros th. apply half_line_shift. apply half_line; [apply skew_dir_unit|]. apply sheet_line. auto. }
  split; [exact HF|]. split; [exact II|]. split.
  - intros n Hn. destruct (C77_longitudinal_is_trapezoid_of_biot_savart_lines g Rr m r psi z n HR Hn OFF) as (H & HH & E & _). rewrite E.
    assert (EF : forall th, H th = F th) by (intros th; exact (half_line_unique _ _ _ _ _ _ (HH th) (HF th))).
    unfold T. f_equal. apply tri; apply trapezoid_ext; intros t; rewrite EF; reflexivity.
  - apply (trap3 F (fun n => PI / INR n) 0 (3 * PI)); auto; [split; [|split]; auto|split; [|split]; intros t; unfold F; rewrite cos_per, sin_per; reflexivity|].
    intros n Hn. assert (2 <= INR n) by (apply (le_INR 2 n); auto). split; [apply Rlt_le, Rdiv_lt_0_compat; lra|].
    assert (PI / INR n <= PI); [|lra]. apply Rmult_le_reg_r with (INR n); [lra|]. unfold Rdiv. rewrite Rmult_assoc, Rinv_l, Rmult_1_r by lra. nra.
Qed.
Example C82_case : off_sheet 1 1 (1 / 2 * cos 0, 1 / 2 * sin 0, 0).
Proof. exact C76_case. Qed.
