(** * C126: a row of vortex rings is the (skewed) vortex cylinder *)
From Coquelicot Require Import Coquelicot.
From Coq Require Import ZArith List Bool Arith Lia String Reals Lra Psatz.
From Verif Require Import Num NumR NumX M_Elliptic M_Line M_Cylinder M_Ring M_Doublet M_Skewed L_List L_X L_Angles L_Built Spec SpecBS L_Calc L_Ell L_Cyl P_Line P_Ring P_Doublet P_Skewed P_Cylinder P_Cylinder2 P_Cylinder3 P_Longi P_Converge P_Potential L_Ellipse P_RotorDisk.
Import ListNotations.
Local Open Scope R_scope.
Local Notation len := List.length.

(** ** Specification *)
(** the [n] rings of the tests (VortexCylinder.py:566-, VortexCylinderSkewed.py:613-): same radius [Rr], centres at
    equal intervals on the axis direction (m,0,1) from 0 to height [L], each carrying the sheet's vorticity over one interval *)
Definition row_of_rings (g Rr m L : R) (n : nat) : list (R * R * R3) :=
  let h := L / INR (n - 1) in
  map (fun i => (g * sqrt (1 + m ^ 2) * h, Rr, (m * (INR i * h), 0, INR i * h))) (seq 0 n).
(** [p] is in neither of the zones (about the axis, about the circle) in which the ring routine replaces its formula,
    for any ring of the row *)
Definition clear_of_rings (Rr m : R) (p : R3) : Prop := forall s, 0 <= s ->
  let r := sqrt ((px p - m * s) * (px p - m * s) + py p * py p) in
  (r = 0 \/ 1/10000000 * Rr <= r) /\ ~ (Rabs (r - Rr) < 1/10000000 * Rr /\ Rabs (pz p - s) < 1/10000000).

(** ** Integrals depending on a parameter *)
Lemma RInt_param_cont (K : R -> R -> R) a b : a <= b -> (forall u t, continuity_2d_pt K u t) -> forall x, continuous (fun u => RInt (K u) a b) x.
Proof.
  intros Hab HK x. apply continuity_pt_filterlim. intros e He.
  assert (E2 : 0 < e / (2 * (b - a + 1))) by (apply Rdiv_lt_0_compat; lra).
  destruct (uniform_continuity_2d_1d' K a b x (fun t _ => HK x t) (mkposreal _ E2)) as [d Hd]. exists d. split; [apply cond_pos|].
  intros y [_ Hy]. change (Rabs (y - x) < d) in Hy. change (Rabs (RInt (K y) a b - RInt (K x) a b) < e).
  assert (C : forall u t, continuous (K u) t) by (intros; apply cont_2d_1d; auto).
  assert (I : is_RInt (fun t => K y t - K x t) a b (RInt (K y) a b - RInt (K x) a b)) by (apply (is_RInt_minus (V := R_NormedModule)); apply cont_is_RInt; auto).
  rewrite <- (RInt_val _ _ _ _ I).
  eapply Rle_lt_trans; [apply (abs_RInt_le_const _ _ _ (e / (2 * (b - a + 1)))); auto; [eexists; exact I|]|].
  - intros t Ht. apply Rlt_le. pose proof (cond_pos d) as D0. apply Rabs_lt_between in Hy. change R in y, x. apply (Hd t x t y); auto; try (change (x - d <= x <= x + d); lra); try (change (x - d <= y <= x + d); lra). rewrite Rminus_diag_eq, Rabs_R0 by reflexivity; auto.
  - apply Rmult_lt_reg_r with (2 * (b - a + 1)); [lra|]. unfold Rdiv. rewrite Rmult_assoc, Rmult_assoc, Rinv_l by lra. nra.
Qed.
Lemma swap2 (K : R -> R -> R) : (forall u t, continuity_2d_pt K u t) -> forall u t, continuity_2d_pt (fun a b => K b a) u t.
Proof. intros H u t e. destruct (H t u e) as [d Hd]. exists d. intros; apply Hd; auto. Qed.
Lemma fubini (K : R -> R -> R) a b L : a <= b -> 0 <= L -> (forall u t, continuity_2d_pt K u t) ->
  RInt (fun s => RInt (K s) a b) 0 L = RInt (fun t => RInt (fun s => K s t) 0 L) a b.
Proof.
  intros Hab HL HK.
  set (K' := fun t s => K s t). assert (HK' : forall u t, continuity_2d_pt K' u t) by (apply swap2; auto).
  assert (C : forall u t, continuous (K u) t) by (intros; apply cont_2d_1d; auto).
  assert (C' : forall u t, continuous (K' u) t) by (intros; apply cont_2d_1d; auto).
  set (F := fun u => RInt (fun t => RInt (K' t) 0 u) a b).
  assert (CF : forall u, forall t, continuous (fun t => RInt (K' t) 0 u) t).
  { intros u. destruct (Rle_dec 0 u) as [H|H]; [apply RInt_param_cont; auto|].
    intros t. apply (continuous_ext (fun t => - RInt (K' t) u 0)); [intros w; rewrite <- RInt_swapR by auto; reflexivity|].
    apply (continuous_opp (V := R_NormedModule)). apply RInt_param_cont; auto. lra. }
  assert (D : forall u, is_derive F u (RInt (K u) a b)).
  { intros u. apply (param_deriv (fun w t => RInt (K' t) 0 w) K F (fun _ => True) a b u).
    - apply filter_forall. auto.
    - intros w t _. apply (is_derive_RInt (K' t) (fun w => RInt (K' t) 0 w) 0); [|apply C']. apply filter_forall. intros s. apply (cont_is_RInt (K' t) 0 s). auto.
    - auto.
    - intros w _. apply cont_is_RInt. auto.
    - apply cont_is_RInt. auto. }
  assert (I : is_RInt (fun s => RInt (K s) a b) 0 L (minus (F L) (F 0))).
  { apply (is_RInt_derive F); [intros; apply D|]. intros; apply RInt_param_cont; auto. }
  rewrite (RInt_val _ _ _ _ I). change (F L + - F 0 = F L).
  assert (F0 : F 0 = 0); [|rewrite F0; ring]. unfold F.
  transitivity (RInt (fun _ : R => 0) a b).
  - apply (@RInt_ext R_CompleteNormedModule). intros t _. apply (@RInt_point R_CompleteNormedModule).
  - rewrite (@RInt_const R_CompleteNormedModule). unfold scal; cbn; unfold mult; cbn. ring.
Qed.
(** the tail of an improper integral *)
Lemma tail (f : R -> R) v L C : 0 < L -> 0 <= C -> (forall x, continuous f x) -> (forall s, L <= s -> Rabs (f s) <= C / (s * s)) ->
  is_RInt_gen f (at_point 0) (Rbar_locally p_infty) v -> Rabs (v - RInt f 0 L) <= C / L.
Proof.
  intros HL HC Hc HB H. apply le_epsilon. intros e He.
  specialize (H (fun y => Rabs (y - v) < e)). destruct H as [Q1 Q2 HQ1 HQ2 HQ].
  { exists (mkposreal e He). intros y Hy. exact Hy. }
  destruct HQ2 as [M HM]. set (L' := Rmax (M + 1) (L + 1)). pose proof (Rmax_l (M + 1) (L + 1)). pose proof (Rmax_r (M + 1) (L + 1)).
  destruct (HQ 0 L' HQ1 ltac:(apply HM; unfold L'; lra)) as (y & Iy & Hy). cbn [fst snd] in Iy.
  assert (E : y = RInt f 0 L + RInt f L L').
  { rewrite <- (RInt_val _ _ _ _ Iy). symmetry. apply (@RInt_Chasles R_CompleteNormedModule); apply cont_ex_RInt; auto. }
  assert (B : Rabs (RInt f L L') <= C / L).
  { assert (I : is_RInt (fun s => C / (s * s)) L L' (minus (- C / L') (- C / L))).
    { apply (is_RInt_derive (fun s => - C / s)).
      - intros s Hs. rewrite Rmin_left in Hs by (unfold L'; lra). auto_derive; [lra|]. field. lra.
      - intros s Hs. rewrite Rmin_left in Hs by (unfold L'; lra). apply (@ex_derive_continuous R_AbsRing R_NormedModule). auto_derive. apply Rgt_not_eq, Rmult_lt_0_compat; lra. }
    apply Rle_trans with (minus (- C / L') (- C / L)).
    - rewrite <- (RInt_val _ _ _ _ I). eapply Rle_trans; [apply abs_RInt_le; [unfold L'; lra|apply cont_ex_RInt; auto]|].
      apply RInt_le; [unfold L'; lra| |eexists; exact I|].
      + apply cont_ex_RInt. intros x. apply (continuous_comp f Rabs); [auto|apply continuous_Rabs].
      + intros s Hs. apply HB. lra.
    - unfold minus, plus, opp. cbn. assert (0 <= C / L') by (apply Rmult_le_pos; [auto|apply Rlt_le, Rinv_0_lt_compat; unfold L'; lra]). unfold Rdiv in *. lra. }
  replace (v - RInt f 0 L) with (- (y - v) + RInt f L L') by (rewrite E; ring).
  eapply Rle_trans; [apply Rabs_triang|]. rewrite Rabs_Ropp. lra.
Qed.

(** ** The sheet up to a height *)
Ltac c3d :=
  lazymatch goal with
  | |- continuity_2d_pt (fun u v => u) _ _ => apply continuity_2d_pt_id1
  | |- continuity_2d_pt (fun u v => v) _ _ => apply continuity_2d_pt_id2
  | |- continuity_2d_pt (fun _ _ => ?c) _ _ => apply continuity_2d_pt_const
  | |- continuity_2d_pt (fun u v => (@?f u v) + (@?g u v)) _ _ => apply (continuity_2d_pt_plus f g); c3d
  | |- continuity_2d_pt (fun u v => (@?f u v) - (@?g u v)) _ _ => apply (continuity_2d_pt_minus f g); c3d
  | |- continuity_2d_pt (fun u v => (@?f u v) * (@?g u v)) _ _ => apply (continuity_2d_pt_mult f g); c3d
  | |- continuity_2d_pt (fun u v => - (@?f u v)) _ _ => apply (continuity_2d_pt_opp f); c3d
  | |- continuity_2d_pt (fun u v => / (@?f u v)) _ _ => apply (continuity_2d_pt_inv f); [c3d|]
  | |- continuity_2d_pt (fun u v => cos (@?f u v)) _ _ => apply (continuity_1d_2d_pt_comp cos f); [apply continuity_cos|c3d]
  | |- continuity_2d_pt (fun u v => sin (@?f u v)) _ _ => apply (continuity_1d_2d_pt_comp sin f); [apply continuity_sin|c3d]
  | |- continuity_2d_pt (fun u v => Rabs (@?f u v)) _ _ => apply (continuity_1d_2d_pt_comp Rabs f); [apply Rcontinuity_abs|c3d]
  | |- continuity_2d_pt (fun u v => sqrt (@?f u v)) _ _ => apply (continuity_1d_2d_pt_comp sqrt f); [apply continuity_pt_filterlim; apply continuous_sqrt|c3d]
  | |- _ => idtac
  end.
Section Row.
  Variables g Rr m : R.
  Variable p : R3.
  Hypothesis off : off_sheet Rr m p.
  Let k := g * sqrt (1 + m ^ 2) * Rr.
  Definition rk (c : R3 -> R) (s th : R) : R := k * c (bs_kernel p (Rr * cos th + m * Rabs s, Rr * sin th, Rabs s) (- sin th, cos th, 0)).
  Definition Rseg (c : R3 -> R) (L : R) : R := RInt (fun s => RInt (rk c s) 0 (2 * PI)) 0 L.
  Lemma len_pos s th : 0 < length3 (sub3 p (Rr * cos th + m * Rabs s, Rr * sin th, Rabs s)).
  Proof using off.
    set (w := sub3 _ _). apply sqrt_lt_R0. destruct (Rle_lt_dec (inner w w) 0) as [H|H]; auto. exfalso.
    specialize (off th (Rabs s) (Rabs_pos s)). apply off. revert H. unfold w, inner, sub3. destruct p as [[x y] z]. unfold px, py, pz. cbn [fst snd]. intros H.
    assert (Q : forall a b : R, (a - b) * (a - b) <= 0 -> a = b) by (intros a b Hab; destruct (Req_dec a b) as [E|E]; auto; pose proof (Rsq_lt (a - b) ltac:(lra)); lra).
    pose proof (Rsq_pos (x - (Rr * cos th + m * Rabs s))). pose proof (Rsq_pos (y - Rr * sin th)). pose proof (Rsq_pos (z - Rabs s)).
    apply tri; apply Q; lra.
  Qed.
  Lemma rk_cont : each3 (fun c => forall s th, continuity_2d_pt (rk c) s th).
  Proof using off.
    pose proof PI_RGT_0.
    assert (K : forall N : R -> R -> R, (forall s th, continuity_2d_pt N s th) ->
       forall s th, continuity_2d_pt (fun s th => k * (/ (4 * PI * length3 (sub3 p (Rr * cos th + m * Rabs s, Rr * sin th, Rabs s)) ^ 3) * N s th)) s th).
    { intros Nf HN s th. pose proof (len_pos s th) as LP. apply continuity_2d_pt_mult; [apply continuity_2d_pt_const|]. apply continuity_2d_pt_mult; [|apply HN].
      apply (continuity_2d_pt_inv (fun s th => 4 * PI * length3 (sub3 p (Rr * cos th + m * Rabs s, Rr * sin th, Rabs s)) ^ 3)).
      - unfold length3, inner, sub3, px, py, pz. cbn [fst snd pow]. c3d.
      - apply Rgt_not_eq. apply Rmult_lt_0_compat; [lra|]. apply pow_lt. exact LP. }
    split; [|split]; (eapply K; intros s th; unfold vprod, sub3, px, py, pz; cbn [fst snd]; c3d).
  Qed.
  Hypothesis hR : 0 < Rr.
  Lemma rk_bound s th : 0 < s -> 2 * Rabs (pz p) <= s -> each3 (fun c => Rabs (rk c s th) <= Rabs g * sqrt (1 + m ^ 2) * Rr / PI / (s * s)).
  Proof using off hR.
    intros Hs Hz. pose proof PI_RGT_0. pose proof (len_pos s th) as LP. unfold rk, bs_kernel. set (w := sub3 p _) in *.
    assert (EZ : pz w = pz p - s) by (unfold w, sub3; cbn; rewrite (Rabs_pos_eq s) by lra; reflexivity).
    set (d := length3 w) in *. assert (D2 : d * d = px w * px w + py w * py w + pz w * pz w) by (unfold d; rewrite length3_sq; reflexivity).
    assert (DS : s * s <= 4 * (d * d)).
    { assert (s / 2 <= s - pz p) by (pose proof (Rle_abs (pz p)); lra). rewrite D2, EZ. pose proof (Rsq_pos (px w)). pose proof (Rsq_pos (py w)). nra. }
    assert (SQ : 0 < sqrt (1 + m ^ 2)) by (apply sqrt_lt_R0; pose proof (Rsq_pos m); cbn [pow]; nra).
    assert (KA : Rabs k = Rabs g * sqrt (1 + m ^ 2) * Rr) by (unfold k; rewrite !Rabs_mult, (Rabs_pos_eq (sqrt (1 + m ^ 2))), (Rabs_pos_eq Rr) by lra; reflexivity).
    pose proof (sin2_cos2 th) as SC. unfold Rsqr in SC.
    assert (K : forall q, q * q <= d * d -> Rabs (k * (/ (4 * PI * d ^ 3) * q)) <= Rabs g * sqrt (1 + m ^ 2) * Rr / PI / (s * s)).
    { intros q Hq. assert (D3 : 0 < 4 * PI * d ^ 3) by (apply Rmult_lt_0_compat; [lra|apply pow_lt; auto]).
      rewrite !Rabs_mult, KA, (Rabs_pos_eq (/ (4 * PI * d ^ 3))) by (apply Rlt_le, Rinv_0_lt_compat; auto).
      assert (Q : Rabs q <= d) by (apply Rsqr_incr_0_var; [|lra]; unfold Rsqr; rewrite <- Rabs_mult, Rabs_pos_eq by apply Rsq_pos; exact Hq).
      assert (P0 : 0 <= Rabs g * sqrt (1 + m ^ 2) * Rr) by (rewrite <- KA; apply Rabs_pos).
      unfold Rdiv. rewrite (Rmult_assoc (_ * _ * Rr)). apply Rmult_le_compat_l; auto.
      assert (SS : 0 < s * s) by (apply Rmult_lt_0_compat; auto). assert (DD : 0 < d * d) by (apply Rmult_lt_0_compat; auto).
      apply Rle_trans with (/ (4 * PI * d ^ 3) * d); [apply Rmult_le_compat_l; auto; apply Rlt_le, Rinv_0_lt_compat; auto|].
      replace (/ (4 * PI * d ^ 3) * d) with (/ (PI * (4 * (d * d)))) by (field; split; lra).
      rewrite <- Rinv_mult_distr by lra. apply Rinv_le_contravar; [apply Rmult_lt_0_compat; auto|]. apply Rmult_le_compat_l; lra. }
    split; [|split]; apply K; unfold vprod, px, py, pz in *; cbn [fst snd] in *; rewrite D2; set (w1 := fst (fst w)); set (w2 := snd (fst w)); set (w3 := snd w).
    - pose proof (Rsq_pos w1). pose proof (Rsq_pos w2). pose proof (Rsq_pos (sin th * w3)). 
      replace ((cos th * w3 - 0 * w2) * (cos th * w3 - 0 * w2)) with ((sin th * sin th + cos th * cos th) * (w3 * w3) - sin th * w3 * (sin th * w3)) by ring. rewrite SC. lra.
    - pose proof (Rsq_pos w1). pose proof (Rsq_pos w2). pose proof (Rsq_pos (cos th * w3)). 
      replace ((0 * w1 - - sin th * w3) * (0 * w1 - - sin th * w3)) with ((sin th * sin th + cos th * cos th) * (w3 * w3) - cos th * w3 * (cos th * w3)) by ring. rewrite SC. lra.
    - pose proof (Rsq_pos w3). pose proof (Rsq_pos (cos th * w2 - sin th * w1)).
      replace ((- sin th * w2 - cos th * w1) * (- sin th * w2 - cos th * w1)) with ((sin th * sin th + cos th * cos th) * (w1 * w1 + w2 * w2) - (cos th * w2 - sin th * w1) * (cos th * w2 - sin th * w1)) by ring. rewrite SC. lra.
  Qed.
  (** the whole sheet and its part up to the height [L] *)
  Lemma seg_tail L : 0 < L -> 2 * Rabs (pz p) <= L -> each3 (fun c => Rabs (c (SV g Rr m p) - Rseg c L) <= 2 * (Rabs g * sqrt (1 + m ^ 2) * Rr) / L).
  Proof using off hR.
    intros HL Hz. pose proof PI_RGT_0. set (C := Rabs g * sqrt (1 + m ^ 2) * Rr / PI).
    assert (C0 : 0 <= C). { unfold C. apply Rmult_le_pos; [apply Rmult_le_pos; [apply Rmult_le_pos; [apply Rabs_pos|apply sqrt_pos]|lra]|apply Rlt_le, Rinv_0_lt_compat; lra]. }
    destruct (rowc g Rr m p off) as (R1 & R2 & R3'). destruct rk_cont as (K1 & K2 & K3).
    assert (ROW : forall th, ring_row_velocity g Rr m th p (row_u g Rr m th p)) by (intros th; apply row_velocity; intros s Hs; apply off; auto).
    assert (G : forall c : R3 -> R, (forall x, continuous (fun th => c (row_u g Rr m th p)) x) -> (forall s th, continuity_2d_pt (rk c) s th) ->
       (forall s th, 0 < s -> 2 * Rabs (pz p) <= s -> Rabs (rk c s th) <= C / (s * s)) ->
       (forall th, is_RInt_gen (fun s => g * sqrt (1 + m ^ 2) * Rr * c (bs_kernel p (Rr * cos th + m * s, Rr * sin th, s) (- sin th, cos th, 0))) (at_point 0) (Rbar_locally p_infty) (c (row_u g Rr m th p))) ->
       Rabs (RInt (fun th => c (row_u g Rr m th p)) 0 (2 * PI) - Rseg c L) <= 2 * (Rabs g * sqrt (1 + m ^ 2) * Rr) / L).
    { intros c Rc Kc Bc Ic. unfold Rseg. rewrite fubini by (auto; lra).
      assert (CI : forall th, continuous (fun th => RInt (fun s => rk c s th) 0 L) th) by (apply (RInt_param_cont (fun th s => rk c s th)); [lra|apply swap2; auto]).
      assert (I : is_RInt (fun th => c (row_u g Rr m th p) - RInt (fun s => rk c s th) 0 L) 0 (2 * PI) (RInt (fun th => c (row_u g Rr m th p)) 0 (2 * PI) - RInt (fun t => RInt (fun s => rk c s t) 0 L) 0 (2 * PI)))
        by (apply (is_RInt_minus (V := R_NormedModule)); apply cont_is_RInt; auto).
      rewrite <- (RInt_val _ _ _ _ I). replace (2 * (Rabs g * sqrt (1 + m ^ 2) * Rr) / L) with ((2 * PI - 0) * (C / L)) by (unfold C; field; split; lra).
      apply abs_RInt_le_const; [lra|eexists; exact I|]. intros th _.
      apply tail; auto.
      - intros s. apply (cont_2d_1d (fun th s => rk c s th)). apply swap2. auto.
      - intros s Hs. apply Bc; lra.
      - eapply is_RInt_gen_ext; [|apply Ic]. 
        exists (fun x => x = 0) (fun y => 0 < y); [reflexivity|exists 0; auto|]. intros x y -> Hy s Hs. cbn [fst snd] in Hs. rewrite Rmin_left in Hs by lra. unfold rk. rewrite (Rabs_pos_eq s) by lra. reflexivity. }
    split; [|split].
    - apply (G px R1 K1); [intros s th H0 H1; exact (proj1 (rk_bound s th H0 H1))|intros th; exact (proj1 (ROW th))].
    - apply (G py R2 K2); [intros s th H0 H1; exact (proj1 (proj2 (rk_bound s th H0 H1)))|intros th; exact (proj1 (proj2 (ROW th)))].
    - apply (G pz R3' K3); [intros s th H0 H1; exact (proj2 (proj2 (rk_bound s th H0 H1)))|intros th; exact (proj2 (proj2 (ROW th)))].
  Qed.
  Lemma inner_cont : each3 (fun c => forall s, continuous (fun s => RInt (rk c s) 0 (2 * PI)) s).
  Proof using off. pose proof PI_RGT_0. destruct rk_cont as (K1 & K2 & K3). split; [|split]; apply RInt_param_cont; auto; lra. Qed.
End Row.

(** ** Sums of rings *)
Lemma rect_trap (f : R -> R) L n : (2 <= n)%nat -> let h := L / INR (n - 1) in
  fold_right Rplus 0 (map (fun i => h * f (INR i * h)) (seq 0 n)) = trapezoid f 0 L n + h * ((f 0 + f L) / 2).
Proof.
  intros Hn h. destruct n as [|[|k]]; try lia. assert (HL : L = INR (S k) * h) by (unfold h; replace (S (S k) - 1)%nat with (S k) by lia; field; apply not_0_INR; lia).
  assert (FL : f L = f (INR (S k) * h)) by (rewrite <- HL; reflexivity). rewrite FL. clear HL FL.
  unfold trapezoid. fold h. cbv zeta. replace (S (S k) - 1)%nat with (S k) in * by lia.
  rewrite (map_ext (fun i => h * ((f (0 + INR i * h) + f (0 + INR (S i) * h)) / 2)) (fun i => h * ((f (INR i * h) + f (INR (S i) * h)) / 2))) by (intros i; rewrite !Rplus_0_l; reflexivity).
  clearbody h. clear Hn. induction (S k) as [|j IH] in |- *.
  - cbn. rewrite !Rmult_0_l. field.
  - assert (FA : forall l a, fold_right Rplus a l = fold_right Rplus 0 l + a) by (induction l as [|x l IHl]; intros a; cbn [fold_right]; [ring|rewrite IHl; ring]).
    assert (FS : forall (q : nat -> R) i, fold_right Rplus 0 (map q (seq 0 (S i))) = fold_right Rplus 0 (map q (seq 0 i)) + q i) by (intros q i; rewrite seq_S, map_app, fold_right_app, FA; cbn [map fold_right Nat.add]; ring).
    rewrite (FS _ (S j)), IH, FS. cbn [map fold_right Nat.add]. field.
Qed.
Lemma h_small L : 0 < L -> forall e, 0 < e -> exists M, forall n, (M <= n)%nat -> 0 < L / INR (n - 1) <= e.
Proof.
  intros HL e He. destruct (nfloor_ex (L / e)) as [k [_ K]]; [apply Rlt_le, Rdiv_lt_0_compat; auto|]. exists (S (S k)). intros n Hn.
  assert (KN : INR k + 1 <= INR (n - 1)) by (rewrite <- S_INR; apply le_INR; lia). pose proof (pos_INR k).
  split; [apply Rdiv_lt_0_compat; lra|]. apply Rmult_le_reg_r with (INR (n - 1)); [lra|]. unfold Rdiv at 1. rewrite Rmult_assoc, Rinv_l by lra.
  assert (L < e * INR (n - 1)); [|lra]. apply Rmult_lt_reg_r with (/ e); [apply Rinv_0_lt_compat; auto|]. replace (e * INR (n - 1) * / e) with (INR (n - 1)) by (field; lra). change (L * / e) with (L / e). lra.
Qed.
Lemma rect_converges (f : R -> R) L : 0 < L -> (forall x, continuous f x) ->
  is_lim_seq (fun n => let h := L / INR (n - 1) in fold_right Rplus 0 (map (fun i => h * f (INR i * h)) (seq 0 n))) (Finite (RInt f 0 L)).
Proof.
  intros HL Hc. apply is_lim_seq_spec. intros [e He]. cbn [pos].
  destruct (trapezoid_converges f 0 L L HL Hc (e / 3) ltac:(lra)) as [M1 H1].
  set (q := Rabs ((f 0 + f L) / 2) + 1). assert (Q : 0 < q) by (pose proof (Rabs_pos ((f 0 + f L) / 2)); unfold q; lra).
  destruct (h_small L HL (e / (3 * q)) ltac:(apply Rdiv_lt_0_compat; lra)) as [M2 H2].
  exists (max 2 (max M1 M2)). intros n Hn. cbv zeta. rewrite rect_trap by lia. specialize (H1 n 0 ltac:(lia) ltac:(lra) ltac:(lra)). rewrite Rplus_0_l in H1.
  destruct (H2 n ltac:(lia)) as [P1 P2]. set (h := L / INR (n - 1)) in *. set (T := trapezoid f 0 L n) in *. set (w := (f 0 + f L) / 2) in *.
  replace (T + h * w - RInt f 0 L) with (- (RInt f 0 L - T) + h * w) by ring. eapply Rle_lt_trans; [apply Rabs_triang|]. rewrite Rabs_Ropp, Rabs_mult, (Rabs_pos_eq h) by lra.
  assert (h * Rabs w <= e / 3); [|lra]. apply Rle_trans with (e / (3 * q) * q); [apply Rmult_le_compat; try lra; [apply Rabs_pos|unfold q; lra]|].
  apply Req_le. field. lra.
Qed.

Lemma clear_off Rr m p : 0 < Rr -> clear_of_rings Rr m p -> off_sheet Rr m p.
Proof.
  intros hR CL th s Hs E. destruct (CL s Hs) as [_ HN]. apply HN. rewrite E. unfold px, py, pz. cbn [fst snd].
  replace ((Rr * cos th + m * s - m * s) * (Rr * cos th + m * s - m * s) + Rr * sin th * (Rr * sin th)) with (Rr * Rr * (Rsqr (sin th) + Rsqr (cos th))) by (unfold Rsqr; ring).
  rewrite sin2_cos2, Rmult_1_r, sqrt_square by lra. rewrite !Rminus_diag_eq, Rabs_R0 by reflexivity. lra.
Qed.
Lemma sum3_comp (vs : list R3) : px (sum3 vs) = fold_right Rplus 0 (map px vs) /\ py (sum3 vs) = fold_right Rplus 0 (map py vs) /\ pz (sum3 vs) = fold_right Rplus 0 (map pz vs).
Proof. induction vs as [|v vs (A & B & C)]; [repeat split; reflexivity|]. unfold sum3 in *. cbn [fold_right map]. rewrite <- A, <- B, <- C. repeat split; reflexivity. Qed.
(** one ring of the row *)
Lemma one_ring g Rr m p eps h s : 0 < Rr -> clear_of_rings Rr m p -> 0 <= s ->
  forall v, ring_u (N := XN) (Fin (g * sqrt (1 + m ^ 2) * h)) (Fin Rr) (Fin eps) (Fin (px p - m * s), Fin (py p - 0), Fin (pz p - s)) = xv v ->
  each3 (fun c => c v = h * RInt (rk g Rr m p c s) 0 (2 * PI)).
Proof.
  intros hR CL Hs v E. rewrite Rminus_0_r in E. destruct (CL s Hs) as [C1 C2].
  destruct (C45_ring_u_biot_savart (g * sqrt (1 + m ^ 2) * h) Rr (Fin eps) (px p - m * s) (py p) (pz p - s) hR C1 C2) as (u & E' & (B1 & B2 & B3)).
  rewrite E in E'. assert (v = u). { destruct v as [[a b] c], u as [[a' b'] c']. unfold xv, px, py, pz in E'. cbn in E'. congruence. } subst u.
  destruct (rk_cont g Rr m p (clear_off _ _ _ hR CL)) as (K1 & K2 & K3).
  assert (G : forall c : R3 -> R, (forall s th, continuity_2d_pt (rk g Rr m p c) s th) ->
     is_RInt (fun th => g * sqrt (1 + m ^ 2) * h * Rr * c (bs_kernel (px p - m * s, py p, pz p - s) (Rr * cos th, Rr * sin th, 0) (- sin th, cos th, 0))) 0 (2 * PI) (c v) ->
     c v = h * RInt (rk g Rr m p c s) 0 (2 * PI)).
  { intros c Kc I. rewrite <- (RInt_val _ _ _ _ I). apply RInt_val.
    eapply is_RInt_ext; [|apply (is_RInt_scal (rk g Rr m p c s) 0 (2 * PI) h); apply cont_is_RInt; intros; apply cont_2d_1d; auto].
    intros th _. unfold rk, bs_kernel. rewrite (Rabs_pos_eq s) by auto.
    assert (EW : sub3 p (Rr * cos th + m * s, Rr * sin th, s) = sub3 (px p - m * s, py p, pz p - s) (Rr * cos th, Rr * sin th, 0)) by (destruct p as [[x y] z]; unfold sub3, px, py, pz; cbn [fst snd]; apply tri; ring).
    rewrite EW. unfold scal. cbn. unfold mult. cbn. ring. }
  split; [|split]; [apply (G px K1 B1)|apply (G py K2 B2)|apply (G pz K3 B3)].
Qed.

(** ** Theorem *)
Theorem C126_rings_are_the_cylinder : forall g Rr m p L eps, 0 < Rr -> clear_of_rings Rr m p -> 0 < L -> 2 * Rabs (pz p) <= L -> 0 <= eps ->
  exists u W V, skewed_velocity g Rr m p u /\
    (forall n, (2 <= n)%nat -> rings_u (N := XN) (Fin eps) (map xring (row_of_rings g Rr m L n)) (xv p) = xv (V n)) /\ tends3 V W /\
    each3 (fun c => Rabs (c u - c W) <= 2 * (Rabs g * sqrt (1 + m ^ 2) * Rr) / L).
Proof.
  intros g Rr m p L eps hR CL HL Hz He. pose proof (clear_off _ _ _ hR CL) as OFF.
  assert (HV : forall n, exists v, (2 <= n)%nat -> rings_u (N := XN) (Fin eps) (map xring (row_of_rings g Rr m L n)) (xv p) = xv v /\
     each3 (fun c => c v = let h := L / INR (n - 1) in fold_right Rplus 0 (map (fun i => h * RInt (rk g Rr m p c (INR i * h)) 0 (2 * PI)) (seq 0 n)))).
  { intros n. destruct (C50_superposition eps (row_of_rings g Rr m L n) p He) as (vs & F2 & E).
    { unfold row_of_rings. apply Forall_forall. intros q Hq. apply in_map_iff in Hq. destruct Hq as (i & <- & _). exact hR. }
    exists (sum3 vs). intros Hn. split; [exact E|]. unfold row_of_rings in F2. cbv zeta in *. set (h := L / INR (n - 1)) in *.
    assert (Hh : 0 <= h) by (unfold h; apply Rlt_le, Rdiv_lt_0_compat; [auto|apply lt_0_INR; lia]). clearbody h. clear E Hn.
    assert (Q : forall l vs, Forall2 (fun q v => let '(G, Rr, c) := q in
               ring_u (N := XN) (Fin G) (Fin Rr) (Fin eps) (Fin (px p - px c), Fin (py p - py c), Fin (pz p - pz c)) = xv v /\ (G = 0 -> v = (0, 0, 0)))
               (map (fun i => (g * sqrt (1 + m ^ 2) * h, Rr, (m * (INR i * h), 0, INR i * h))) l) vs ->
        each3 (fun c => map c vs = map (fun i => h * RInt (rk g Rr m p c (INR i * h)) 0 (2 * PI)) l)).
    { clear - hR CL Hh. induction l as [|i l IH]; intros vs H; inversion H; subst; [repeat split; reflexivity|]. destruct H2 as [H2 _].
      destruct (IH _ H4) as (A1 & A2 & A3). destruct (one_ring g Rr m p eps h (INR i * h) hR CL ltac:(apply Rmult_le_pos; auto; apply pos_INR) y H2) as (B1 & B2 & B3).
      split; [|split]; cbn [map]; f_equal; auto. }
    destruct (Q _ _ F2) as (A1 & A2 & A3). destruct (sum3_comp vs) as (S1 & S2 & S3). split; [|split]; congruence. }
  assert (HV' : exists V : nat -> R3, forall n, (2 <= n)%nat -> rings_u (N := XN) (Fin eps) (map xring (row_of_rings g Rr m L n)) (xv p) = xv (V n) /\
     each3 (fun c => c (V n) = let h := L / INR (n - 1) in fold_right Rplus 0 (map (fun i => h * RInt (rk g Rr m p c (INR i * h)) 0 (2 * PI)) (seq 0 n)))).
  { set (f := fun c n => let h := L / INR (n - 1) in fold_right Rplus 0 (map (fun i => h * RInt (rk g Rr m p c (INR i * h)) 0 (2 * PI)) (seq 0 n))).
    exists (fun n => (f px n, f py n, f pz n)). intros n Hn. destruct (HV n) as (v & Hv). destruct (Hv Hn) as (E & (A1 & A2 & A3)).
    split; [rewrite E; f_equal; destruct v as [[a b] c]; unfold px, py, pz in A1, A2, A3; cbn [fst snd] in A1, A2, A3; unfold f, px, py, pz; congruence|]. repeat split; reflexivity. }
  destruct HV' as (V & HVV). exists (SV g Rr m p), (Rseg g Rr m p px L, Rseg g Rr m p py L, Rseg g Rr m p pz L), V.
  split; [apply SV_ok; auto|]. split; [intros n Hn; apply HVV; auto|]. split; [|apply seg_tail; auto].
  destruct (inner_cont g Rr m p OFF) as (C1 & C2 & C3).
  assert (G : forall c : R3 -> R, (forall s, continuous (fun s => RInt (rk g Rr m p c s) 0 (2 * PI)) s) ->
    (forall n, (2 <= n)%nat -> c (V n) = let h := L / INR (n - 1) in fold_right Rplus 0 (map (fun i => h * RInt (rk g Rr m p c (INR i * h)) 0 (2 * PI)) (seq 0 n))) ->
    is_lim_seq (fun n => c (V n)) (Finite (Rseg g Rr m p c L))).
  { intros c Cc Ec. eapply is_lim_seq_ext_loc; [|apply (rect_converges _ L HL Cc)]. exists 2%nat. intros n Hn. symmetry. apply Ec; auto. }
  split; [|split]; [apply (G px C1)|apply (G py C2)|apply (G pz C3)]; intros n Hn; apply HVV; auto.
Qed.

(** a long enough and dense enough row is as close to the cylinder as one likes, in every component *)
Theorem C126_any_accuracy : forall g Rr m p, 0 < Rr -> clear_of_rings Rr m p -> forall tol, 0 < tol ->
  exists u L0, skewed_velocity g Rr m p u /\ forall L eps, L0 <= L -> 0 <= eps -> exists M, forall n, (M <= n)%nat ->
  exists v, rings_u (N := XN) (Fin eps) (map xring (row_of_rings g Rr m L n)) (xv p) = xv v /\ each3 (fun c => Rabs (c v - c u) < tol).
Proof.
  intros g Rr m p hR CL tol Ht. set (B := Rabs g * sqrt (1 + m ^ 2) * Rr).
  assert (B0 : 0 <= B) by (unfold B; apply Rmult_le_pos; [apply Rmult_le_pos; [apply Rabs_pos|apply sqrt_pos]|lra]).
  exists (SV g Rr m p), (1 + 2 * Rabs (pz p) + 4 * B / tol). split; [apply SV_ok, clear_off; auto|]. intros L eps HL He.
  assert (Q0 : 0 <= 4 * B / tol) by (apply Rmult_le_pos; [lra|apply Rlt_le, Rinv_0_lt_compat; auto]). pose proof (Rabs_pos (pz p)) as Z0.
  destruct (C126_rings_are_the_cylinder g Rr m p L eps hR CL ltac:(lra) ltac:(lra) He) as (u & W & V & Hu & HV & (T1 & T2 & T3) & (D1 & D2 & D3)).
  rewrite (SV_unique g Rr m p u (clear_off _ _ _ hR CL) Hu) in *. fold B in D1, D2, D3.
  assert (BL : 2 * B / L <= tol / 2).
  { apply Rmult_le_reg_r with L; [lra|]. unfold Rdiv at 1. rewrite Rmult_assoc, Rinv_l by lra. assert (4 * B / tol * tol <= L * tol) by (apply Rmult_le_compat_r; lra). replace (4 * B / tol * tol) with (4 * B) in H by (field; lra). lra. }
  assert (G : forall c : R3 -> R, is_lim_seq (fun n => c (V n)) (Finite (c W)) -> Rabs (c (SV g Rr m p) - c W) <= 2 * B / L -> exists M, forall n, (M <= n)%nat -> Rabs (c (V n) - c (SV g Rr m p)) < tol).
  { intros c Tc Dc. apply is_lim_seq_spec in Tc. destruct (Tc (mkposreal (tol / 2) ltac:(lra))) as [M HM]. cbn [pos] in HM. exists M. intros n Hn. specialize (HM n Hn).
    replace (c (V n) - c (SV g Rr m p)) with ((c (V n) - c W) - (c (SV g Rr m p) - c W)) by ring. eapply Rle_lt_trans; [apply Rabs_triang|]. rewrite Rabs_Ropp. lra. }
  destruct (G px T1 D1) as [M1 H1]. destruct (G py T2 D2) as [M2 H2]. destruct (G pz T3 D3) as [M3 H3].
  exists (max 2 (max M1 (max M2 M3))). intros n Hn. exists (V n). split; [apply HV; lia|]. split; [|split]; [apply H1|apply H2|apply H3]; lia.
Qed.
(** ... in particular to what the straight cylinder's routine returns *)
Theorem C126_straight : forall PIb, third PIb exact3 -> forall g Rr (pts : list R3) i p, 0 < Rr -> nth_error pts i = Some p -> clear_of_rings Rr 0 p -> ~ rim_zone Rr (rho p) (pz p) -> forall tol, 0 < tol ->
  exists u L0, nth_error (vc_tang_u_gen (N := XN) PIb (Fin g) (Fin Rr) (Fin 0) (map xv pts)) i = Some (xv u) /\ forall L eps, L0 <= L -> 0 <= eps -> exists M, forall n, (M <= n)%nat ->
  exists v, rings_u (N := XN) (Fin eps) (map xring (row_of_rings g Rr 0 L n)) (xv p) = xv v /\ each3 (fun c => Rabs (c v - c u) < tol).
Proof.
  intros PIb HT g Rr pts i p hR Hi CL NZ tol Ht. pose proof (clear_off _ _ _ hR CL) as OFF.
  destruct (CL 0 ltac:(lra)) as [A1 A2]. rewrite Rmult_0_r, !Rminus_0_r in *.
  assert (RH : rho p = sqrt (px p * px p + py p * py p)) by reflexivity. rewrite <- RH in *.
  destruct (C54_is_biot_savart PIb HT g Rr pts i p hR Hi) as (u & Eu & Su); auto.
  { destruct A1 as [A1|A1]; [left|right; exact A1]. rewrite RH in A1. apply sqrt_eq_0 in A1; [|pose proof (Rsq_pos (px p)); pose proof (Rsq_pos (py p)); lra].
    assert (Q : forall a, a * a <= 0 -> a = 0) by (intros a Ha; destruct (Req_dec a 0) as [E|E]; auto; pose proof (Rsq_lt a E); lra).
    pose proof (Rsq_pos (px p)); pose proof (Rsq_pos (py p)). split; apply Q; lra. }
  destruct (C126_any_accuracy g Rr 0 p hR CL tol Ht) as (u' & L0 & [Hu' _] & H). rewrite (sheet_unique _ _ _ _ _ _ Hu' Su) in H.
  exists u, L0. split; auto.
Qed.
(** the points of the tests: on the rotor plane at half a radius, for any skew and any tests' radius; and a point off the plane of the wake *)
Example C126_nonvacuous : clear_of_rings 10 0 (5, 0, 0) /\ clear_of_rings 10 (1/2) (3, 4, -7).
Proof.
  split; intros s Hs; cbv zeta; unfold px, py, pz; cbn [fst snd].
  - replace ((5 - 0 * s) * (5 - 0 * s) + 0 * 0) with (5 * 5) by ring. rewrite sqrt_square by lra. split; [right; lra|]. intros [H _]. rewrite Rabs_left in H by lra. lra.
  - split; [right|].
    + apply Rsqr_incr_0_var; [|apply sqrt_pos]. rewrite Rsqr_sqrt by (pose proof (Rsq_pos (3 - 1/2 * s)); lra). unfold Rsqr. pose proof (Rsq_pos (3 - 1/2 * s)). lra.
    + intros [_ H]. rewrite Rabs_left in H by lra. lra.
Qed.
