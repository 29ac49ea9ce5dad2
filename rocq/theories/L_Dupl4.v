(** * Error of the Carlson iterations *)
From Coquelicot Require Import Coquelicot.
From Coq Require Import ZArith List Arith Lia Reals Lra Psatz.
From Verif Require Import Num NumR M_Elliptic L_List L_X Spec SpecBS L_Calc L_Gen L_Dupl L_Ell L_Dupl2 L_Dupl3.
Import ListNotations.
Local Open Scope R_scope.

Fixpoint itn {A} (k : nat) (f : A -> A) (x : A) : A := match k with O => x | S k => itn k f (f x) end.
Lemma itn_S {A} k (f : A -> A) x : itn (S k) f x = f (itn k f x).
Proof. revert x. induction k as [|k IH]; intros x; [reflexivity|]. cbn [itn] in *. rewrite <- IH. reflexivity. Qed.
Ltac rn := unfold sq; cbn [T nZ nQ nadd nsub nmul ndiv nopp nabs nsqrt npow nlt nle neqb nmax RN].

Lemma frac_box m w a b : 0 < a -> a <= m <= b -> a <= w <= b -> Rabs (1 - w / m) <= (b - a) / a.
Proof.
  intros ha hm hw. replace (1 - w / m) with ((m - w) / m) by (field; lra). unfold Rdiv. rewrite Rabs_mult, (Rabs_pos_eq (/ m)) by (apply Rlt_le, Rinv_0_lt_compat; lra).
  apply Rmult_le_compat; [apply Rabs_pos|apply Rlt_le, Rinv_0_lt_compat; lra|apply Rabs_le; lra|apply Rinv_le_contravar; lra].
Qed.
Lemma frac_any m w c : 0 < m -> 0 <= w <= c * m -> 1 <= c -> Rabs (1 - w / m) <= Rmax 1 (c - 1).
Proof.
  intros hm hw hc. assert (0 <= w / m <= c).
  { split; [apply Rdiv_le_0_compat; lra|]. apply (Rmult_le_reg_r m); auto. unfold Rdiv. rewrite Rmult_assoc, Rinv_l by lra. lra. }
  pose proof (Rmax_l 1 (c - 1)). pose proof (Rmax_r 1 (c - 1)). apply Rabs_le. lra.
Qed.
(** ** RF *)
Definition rfP (X Y Z : R) : R :=
  let s1 := (X * X + Y * Y + Z * Z) / 4 in let s2 := (X * X * X + Y * Y * Y + Z * Z * Z) / 6 in
  s1 / 5 + s2 / 7 + s1 * s1 / 6 + 3 / 11 * s1 * s2 + (5 / 26 * (s1 * s1 * s1) + 3 / 26 * (s2 * s2)).
Lemma rf_val_R x y z : 0 < x + y + z -> let mu := (x + y + z) / 3 in
  rf_val (N := RN) (x, y, z) = / sqrt mu * (1 + rfP (1 - x / mu) (1 - y / mu) (1 - z / mu)).
Proof.
  intros h mu. unfold rf_val. rn. fold mu. rewrite Rpw_mhalf by (unfold mu; lra). f_equal. unfold rfP. ring.
Qed.
Lemma rf_err x y z a b l : 0 < a -> a <= x <= b -> a <= y <= b -> a <= z <= b -> is_RF x y z l ->
  Rabs (rf_val (N := RN) (x, y, z) - l) <= 8 * (b - a) / (a * sqrt a).
Proof.
  intros ha hx hy hz H. rewrite rf_val_R by lra. set (mu := (x + y + z) / 3). assert (hm : a <= mu <= b) by (unfold mu; lra).
  assert (sa : 0 < sqrt a) by (apply sqrt_lt_R0; lra).
  pose proof (RF_lower x y z ltac:(lra) ltac:(lra) ltac:(lra) l H) as LO. fold mu in LO. pose proof (RF_min x y z ltac:(lra) ltac:(lra) ltac:(lra) l a ha ltac:(lra) ltac:(lra) ltac:(lra) H) as UP.
  destruct (inv_sqrt_diff a mu ha ltac:(lra)) as [D1 D2].
  assert (e0 : (b - a) / (a * sqrt a) = (b - a) / a * / sqrt a) by (field; lra).
  assert (D3 : (mu - a) / (a * sqrt a) <= (b - a) / (a * sqrt a)). { unfold Rdiv. apply Rmult_le_compat_r; [apply Rlt_le, Rinv_0_lt_compat, Rmult_lt_0_compat; lra|lra]. }
  pose proof (rf_poly (1 - x / mu) (1 - y / mu) (1 - z / mu) ((b - a) / a)) as P. cbv zeta in P. fold (rfP (1 - x / mu) (1 - y / mu) (1 - z / mu)) in P.
  assert (B2 : forall w, 0 <= w <= 3 * mu -> Rabs (1 - w / mu) <= 2).
  { intros w hw. pose proof (frac_any mu w 3 ltac:(lra) hw ltac:(lra)) as Q. rewrite Rmax_right in Q by lra. lra. }
  specialize (P (frac_box mu x a b ha hm hx) (frac_box mu y a b ha hm hy) (frac_box mu z a b ha hm hz) (B2 x ltac:(unfold mu; lra)) (B2 y ltac:(unfold mu; lra)) (B2 z ltac:(unfold mu; lra))).
  set (p := rfP (1 - x / mu) (1 - y / mu) (1 - z / mu)) in *.
  assert (Q : Rabs (/ sqrt mu * p) <= 7 * ((b - a) / (a * sqrt a))).
  { rewrite Rabs_mult, Rabs_pos_eq by (apply Rlt_le, Rinv_0_lt_compat, sqrt_lt_R0; lra). rewrite e0.
    replace (7 * ((b - a) / a * / sqrt a)) with (/ sqrt a * (7 * ((b - a) / a))) by ring. apply Rmult_le_compat; auto; [apply Rlt_le, Rinv_0_lt_compat, sqrt_lt_R0; lra|apply Rabs_pos|lra]. }
  replace (8 * (b - a) / (a * sqrt a)) with (8 * ((b - a) / (a * sqrt a))) by (field; lra).
  apply Rabs_le_between in Q. apply Rabs_le. lra.
Qed.
Definition box3 (a b : R) (p : R * R * R) : Prop := let '(x, y, z) := p in a <= x <= b /\ a <= y <= b /\ a <= z <= b.
Definition RF_of (p : R * R * R) (l : R) : Prop := let '(x, y, z) := p in is_RF x y z l.
Lemma lam3_R x y z : 0 <= x -> 0 <= y -> 0 <= z -> lam3 (N := RN) x y z = lamR x y z.
Proof. intros. unfold lam3, lamR. rn. rewrite !sqrt_mult by auto. reflexivity. Qed.
Lemma lam_box a b x y z : 0 < a -> a <= x <= b -> a <= y <= b -> a <= z <= b -> 3 * a <= lamR x y z <= 3 * b.
Proof.
  intros ha hx hy hz. unfold lamR.
  assert (Q : forall u v, a <= u <= b -> a <= v <= b -> a <= sqrt u * sqrt v <= b).
  { intros u v hu hv. rewrite <- sqrt_mult by lra. split.
    - rewrite <- (sqrt_square a) by lra. apply sqrt_le_1; [nra|nra|]. apply Rmult_le_compat; lra.
    - rewrite <- (sqrt_square b) by lra. apply sqrt_le_1; [nra|nra|]. apply Rmult_le_compat; lra. }
  pose proof (Q x y hx hy). pose proof (Q x z hx hz). pose proof (Q y z hy hz). lra.
Qed.
Lemma rf_next_R x y z : 0 <= x -> 0 <= y -> 0 <= z ->
  rf_next (N := RN) (x, y, z) = ((x + lamR x y z) / 4, (y + lamR x y z) / 4, (z + lamR x y z) / 4).
Proof. intros. unfold rf_next. rewrite lam3_R by auto. reflexivity. Qed.
Lemma rf_next_box a b p : 0 < a -> box3 a b p -> exists a', a <= a' /\ box3 a' (a' + (b - a) / 4) (rf_next (N := RN) p).
Proof.
  destruct p as [[x y] z]. intros ha (hx & hy & hz). rewrite rf_next_R by lra. pose proof (lam_box a b x y z ha hx hy hz).
  exists ((a + lamR x y z) / 4). unfold box3. lra.
Qed.
(** the integral of the next triple is the same *)
Lemma rf_next_RF p l : (let '(x, y, z) := p in 0 <= x /\ 0 < y /\ 0 < z) -> RF_of p l <-> RF_of (rf_next (N := RN) p) l.
Proof.
  destruct p as [[x y] z]. intros (hx & hy & hz). rewrite rf_next_R by lra. cbn [RF_of].
  assert (D : forall l, is_RF ((x + lamR x y z) / 4) ((y + lamR x y z) / 4) ((z + lamR x y z) / 4) l -> is_RF x y z l) by (intros l0; apply (RF_dup x y z); lra).
  split; [|apply D]. intros H.
  assert (0 < sqrt y) by (apply sqrt_lt_R0; lra). assert (0 < sqrt z) by (apply sqrt_lt_R0; lra). pose proof (sqrt_pos x).
  assert (0 < lamR x y z) by (unfold lamR; assert (0 < sqrt y * sqrt z) by (apply Rmult_lt_0_compat; lra); assert (0 <= sqrt x * sqrt y) by (apply Rmult_le_pos; lra); assert (0 <= sqrt x * sqrt z) by (apply Rmult_le_pos; lra); lra).
  destruct (RF_exists ((x + lamR x y z) / 4) ((y + lamR x y z) / 4) ((z + lamR x y z) / 4)) as [l' H']; try lra.
  rewrite (is_RF_unique _ _ _ _ _ H (D _ H')). exact H'.
Qed.
Lemma rf_it k : forall a b p, 0 < a -> box3 a b p -> exists a', a <= a' /\ box3 a' (a' + (b - a) / 4 ^ k) (itn k (rf_next (N := RN)) p).
Proof.
  induction k as [|k IH]; intros a b p ha H; cbn [itn].
  - exists a. split; [lra|]. cbn [pow]. replace (a + (b - a) / 1) with b by field. exact H.
  - destruct (rf_next_box a b p ha H) as (a1 & h1 & B1). destruct (IH a1 _ _ ltac:(lra) B1) as (a2 & h2 & B2). exists a2. split; [lra|].
    replace ((b - a) / 4 ^ S k) with ((a1 + (b - a) / 4 - a1) / 4 ^ k) by (cbn [pow]; field; apply pow_nonzero; lra). exact B2.
Qed.
Lemma rf_it_RF k : forall a b p l, 0 < a -> box3 a b p -> RF_of p l -> RF_of (itn k (rf_next (N := RN)) p) l.
Proof.
  induction k as [|k IH]; intros a b p l ha H HL; cbn [itn]; auto. destruct (rf_next_box a b p ha H) as (a1 & h1 & B1).
  apply (IH a1 _ _ l ltac:(lra) B1). apply (rf_next_RF p); auto. destruct p as [[x y] z]. destruct H as (h2 & h3 & h4). lra.
Qed.
Lemma div_mono n a a' : 0 < a -> a <= a' -> 0 <= n -> n / (a' * sqrt a') <= n / (a * sqrt a).
Proof.
  intros ha h hn. assert (0 < sqrt a) by (apply sqrt_lt_R0; lra). assert (sqrt a <= sqrt a') by (apply sqrt_le_1; lra).
  unfold Rdiv. apply Rmult_le_compat_l; auto. apply Rinv_le_contravar; [apply Rmult_lt_0_compat; lra|apply Rmult_le_compat; lra].
Qed.
Lemma pow4_pos k : 0 < 4 ^ k. Proof. apply pow_lt. lra. Qed.
Lemma box3_le a b p : box3 a b p -> a <= b.
Proof. destruct p as [[x y] z]. intros (h & _). lra. Qed.
Theorem rf_it_err k a b p l : 0 < a -> box3 a b p -> RF_of p l ->
  Rabs (rf_val (N := RN) (itn k (rf_next (N := RN)) p) - l) <= 8 * (b - a) / (a * sqrt a) / 4 ^ k.
Proof.
  intros ha HB HL. destruct (rf_it k a b p ha HB) as (a' & h1 & B1). pose proof (rf_it_RF k a b p l ha HB HL) as H. pose proof (pow4_pos k).
  pose proof (box3_le a b p HB).
  destruct (itn k (rf_next (N := RN)) p) as [[x y] z]. destruct B1 as (hx & hy & hz).
  eapply Rle_trans; [apply (rf_err x y z a' (a' + (b - a) / 4 ^ k) l); auto; lra|].
  replace (a' + (b - a) / 4 ^ k - a') with ((b - a) / 4 ^ k) by ring.
  eapply Rle_trans; [apply div_mono; [exact ha|exact h1|]|].
  - apply Rmult_le_pos; [lra|]. apply Rdiv_le_0_compat; lra.
  - apply Req_le. assert (0 < sqrt a) by (apply sqrt_lt_R0; lra). field. repeat split; lra.
Qed.
(** ** RC *)
Definition rcP (s : R) : R := 3 / 10 * (s * s) + s * s * s / 7 + 3 / 8 * (s * s * s * s) + 9 / 22 * (s * s * s * s * s) + 159 / 208 * (s * s * s * s * s * s).
Lemma rc_val_R x y : 0 < x + 2 * y -> let mu := (x + 2 * y) / 3 in rc_val (N := RN) (x, y) = / sqrt mu * (1 + rcP ((y - x) / (3 * mu))).
Proof. intros h mu. unfold rc_val. rn. fold mu. rewrite Rpw_mhalf by (unfold mu; lra). f_equal. unfold rcP. ring. Qed.
Lemma rc_err x y a b l : 0 < a -> a <= x <= b -> a <= y <= b -> is_RC x y l ->
  Rabs (rc_val (N := RN) (x, y) - l) <= 3 * (b - a) / (a * sqrt a).
Proof.
  intros ha hx hy HC. apply (proj2 (RC_RF x y l ltac:(lra))) in HC. rename HC into H.
  rewrite rc_val_R by lra. set (mu := (x + 2 * y) / 3). assert (hm : a <= mu <= b) by (unfold mu; lra).
  assert (sa : 0 < sqrt a) by (apply sqrt_lt_R0; lra).
  pose proof (RF_lower x y y ltac:(lra) ltac:(lra) ltac:(lra) l H) as LO. replace ((x + y + y) / 3) with mu in LO by (unfold mu; lra). pose proof (RF_min x y y ltac:(lra) ltac:(lra) ltac:(lra) l a ha ltac:(lra) ltac:(lra) ltac:(lra) H) as UP.
  destruct (inv_sqrt_diff a mu ha ltac:(lra)) as [D1 D2].
  assert (e0 : (b - a) / (a * sqrt a) = (b - a) / a * / sqrt a) by (field; lra).
  assert (D3 : (mu - a) / (a * sqrt a) <= (b - a) / (a * sqrt a)). { unfold Rdiv. apply Rmult_le_compat_r; [apply Rlt_le, Rinv_0_lt_compat, Rmult_lt_0_compat; lra|lra]. }
  assert (S1 : Rabs ((y - x) / (3 * mu)) <= (b - a) / a).
  { unfold Rdiv. rewrite Rabs_mult, (Rabs_pos_eq (/ (3 * mu))) by (apply Rlt_le, Rinv_0_lt_compat; lra).
    apply Rmult_le_compat; [apply Rabs_pos|apply Rlt_le, Rinv_0_lt_compat; lra|apply Rabs_le; lra|apply Rinv_le_contravar; lra]. }
  assert (S2 : Rabs ((y - x) / (3 * mu)) <= 1).
  { unfold Rdiv. rewrite Rabs_mult, (Rabs_pos_eq (/ (3 * mu))) by (apply Rlt_le, Rinv_0_lt_compat; lra).
    apply (Rmult_le_reg_r (3 * mu)); [lra|]. rewrite Rmult_assoc, Rinv_l, Rmult_1_r by lra. apply Rabs_le. unfold mu. lra. }
  pose proof (rc_poly _ _ S1 S2) as P. fold (rcP ((y - x) / (3 * mu))) in P.
  set (p := rcP ((y - x) / (3 * mu))) in *.
  assert (Q : Rabs (/ sqrt mu * p) <= 2 * ((b - a) / (a * sqrt a))).
  { rewrite Rabs_mult, Rabs_pos_eq by (apply Rlt_le, Rinv_0_lt_compat, sqrt_lt_R0; lra). rewrite e0.
    replace (2 * ((b - a) / a * / sqrt a)) with (/ sqrt a * (2 * ((b - a) / a))) by ring. apply Rmult_le_compat; auto; [apply Rlt_le, Rinv_0_lt_compat, sqrt_lt_R0; lra|apply Rabs_pos|lra]. }
  replace (3 * (b - a) / (a * sqrt a)) with (3 * ((b - a) / (a * sqrt a))) by (field; lra).
  apply Rabs_le_between in Q. apply Rabs_le. lra.
Qed.
Definition box2 (a b : R) (p : R * R) : Prop := a <= fst p <= b /\ a <= snd p <= b.
Definition up3 (p : R * R) : R * R * R := (fst p, snd p, snd p).
Lemma rc_next_up3 p : 0 <= fst p -> 0 <= snd p -> up3 (rc_next (N := RN) p) = rf_next (N := RN) (up3 p).
Proof.
  destruct p as [x y]. cbn [fst snd]. intros hx hy. unfold up3. cbn [fst snd]. rewrite rf_next_R by auto. unfold rc_next. rn. cbn [fst snd].
  rewrite sqrt_mult by auto. replace (lamR x y y) with (2 * (sqrt x * sqrt y) + y); [reflexivity|]. unfold lamR. rewrite sqrt_sqrt by auto. ring.
Qed.
Lemma rc_it k : forall p, 0 < fst p -> 0 < snd p -> up3 (itn k (rc_next (N := RN)) p) = itn k (rf_next (N := RN)) (up3 p).
Proof.
  induction k as [|k IH]; intros p h1 h2; cbn [itn]; auto. rewrite <- rc_next_up3 by lra. apply IH; destruct p as [x y]; cbn [fst snd] in *; unfold rc_next; rn; cbn [fst snd]; pose proof (sqrt_pos (x * y)); lra.
Qed.
Theorem rc_it_err k a b p l : 0 < a -> box2 a b p -> is_RC (fst p) (snd p) l ->
  Rabs (rc_val (N := RN) (itn k (rc_next (N := RN)) p) - l) <= 3 * (b - a) / (a * sqrt a) / 4 ^ k.
Proof.
  intros ha [h1 h2] HL. assert (HB : box3 a b (up3 p)) by (cbn; auto).
  destruct (rf_it k a b (up3 p) ha HB) as (a' & ha' & B1). pose proof (rf_it_RF k a b (up3 p) l ha HB) as H. cbn [RF_of up3] in H.
  specialize (H (proj2 (RC_RF (fst p) (snd p) l ltac:(lra)) HL)). pose proof (pow4_pos k).
  rewrite <- rc_it in B1, H by lra. destruct (itn k (rc_next (N := RN)) p) as [x y]. cbn [up3 fst snd RF_of box3] in *. destruct B1 as (hx & hy & _).
  apply (proj1 (RC_RF x y l ltac:(lra))) in H.
  eapply Rle_trans; [apply (rc_err x y a' (a' + (b - a) / 4 ^ k) l); auto; lra|].
  replace (a' + (b - a) / 4 ^ k - a') with ((b - a) / 4 ^ k) by ring.
  eapply Rle_trans; [apply div_mono; [exact ha|exact ha'|]|].
  - apply Rmult_le_pos; [lra|]. apply Rdiv_le_0_compat; lra.
  - apply Req_le. assert (0 < sqrt a) by (apply sqrt_lt_R0; lra). field. repeat split; lra.
Qed.
(** ** RJ *)
Notation R4t := (R * R * R * R)%type.
Definition rjP (X Y Z W : R) : R :=
  let s1 := (X * X + Y * Y + Z * Z + 2 * (W * W)) / 4 in let s2 := (X * X * X + Y * Y * Y + Z * Z * Z + 2 * (W * W * W)) / 6 in
  let s3 := (X * X * X * X + Y * Y * Y * Y + Z * Z * Z * Z + 2 * (W * W * W * W)) / 8 in
  let s4 := (X * X * X * X * X + Y * Y * Y * Y * Y + Z * Z * Z * Z * Z + 2 * (W * W * W * W * W)) / 10 in
  3 / 7 * s1 + s2 / 3 + 3 / 22 * (s1 * s1) + 3 / 11 * s3 + 3 / 13 * (s1 * s2 + s4) + (-1 / 10 * (s1 * s1 * s1) + 3 / 10 * (s2 * s2) + 3 / 5 * s1 * s3).
Lemma inv4_R n : inv4 (N := RN) n = / 4 ^ n.
Proof.
  unfold inv4. rn. rewrite Z2Pos.id by (apply Z.pow_pos_nonneg; lia). rewrite <- (pow_IZR 4 n). unfold Rdiv. ring.
Qed.
Lemma rj_rhs2_R n x y z r : 0 < x + y + z + 2 * r -> let mu := (x + y + z + 2 * r) / 5 in
  rj_rhs2 (N := RN) n ((x, y, z), r) = / 4 ^ S n * (/ (mu * sqrt mu) * (1 + rjP (1 - x / mu) (1 - y / mu) (1 - z / mu) (1 - r / mu))).
Proof.
  intros h mu. unfold rj_rhs2. rewrite inv4_R. rn. fold mu. rewrite Rpw_m3half by (unfold mu; lra). rewrite Rmult_assoc. f_equal. f_equal. unfold rjP. ring.
Qed.
Definition box4 (a b : R) (p : R4t) : Prop := box3 a b (fst p) /\ a <= snd p <= b.
Definition RJ_of (p : R4t) (l : R) : Prop := let '((x, y, z), r) := p in is_RJ x y z r l.
Lemma rj_next_R x y z r : 0 <= x -> 0 <= y -> 0 <= z ->
  rj_next (N := RN) ((x, y, z), r) = (((x + lamR x y z) / 4, (y + lamR x y z) / 4, (z + lamR x y z) / 4), (r + lamR x y z) / 4).
Proof. intros. unfold rj_next. rewrite lam3_R by auto. reflexivity. Qed.
Lemma rj_next_box a b p : 0 < a -> box4 a b p -> exists a', a <= a' /\ a' + (b - a) / 4 <= b /\ box4 a' (a' + (b - a) / 4) (rj_next (N := RN) p).
Proof.
  destruct p as [[[x y] z] r]. intros ha [(hx & hy & hz) hr]. cbn [fst snd] in *. rewrite rj_next_R by lra. pose proof (lam_box a b x y z ha hx hy hz).
  exists ((a + lamR x y z) / 4). unfold box4, box3. cbn [fst snd]. lra.
Qed.
Lemma rj_ab_R x y z r : 0 <= x -> 0 <= y -> 0 <= z ->
  rj_alfa_bet (N := RN) ((x, y, z), r) = ((r * (sqrt x + sqrt y + sqrt z) + sqrt x * sqrt y * sqrt z) * (r * (sqrt x + sqrt y + sqrt z) + sqrt x * sqrt y * sqrt z), r * ((r + lamR x y z) * (r + lamR x y z))).
Proof. intros. unfold rj_alfa_bet. rewrite lam3_R by auto. rn. rewrite prod3_sqrt by auto. reflexivity. Qed.
Definition ok4' (p : R4t) : Prop := let '((x, y, z), r) := p in 0 <= x /\ 0 < y /\ 0 < z /\ 0 < r.
Lemma rj_ab_pos p : ok4' p -> 0 < fst (rj_alfa_bet (N := RN) p) /\ 0 < snd (rj_alfa_bet (N := RN) p).
Proof.
  destruct p as [[[x y] z] r]. intros (hx & hy & hz & hr). rewrite rj_ab_R by lra. cbn [fst snd].
  pose proof (sqrt_pos x). pose proof (sqrt_lt_R0 y hy). pose proof (sqrt_lt_R0 z hz).
  assert (0 < r * (sqrt x + sqrt y + sqrt z)) by (apply Rmult_lt_0_compat; lra). assert (0 <= sqrt x * sqrt y * sqrt z) by (repeat apply Rmult_le_pos; lra).
  assert (0 <= lamR x y z) by (unfold lamR; assert (0 <= sqrt y * sqrt z) by (apply Rmult_le_pos; lra); assert (0 <= sqrt x * sqrt y) by (apply Rmult_le_pos; lra); assert (0 <= sqrt x * sqrt z) by (apply Rmult_le_pos; lra); lra).
  split; repeat apply Rmult_lt_0_compat; lra.
Qed.
(** each step: RJ = RJ(next)/4 + 3 RC *)
Lemma rj_next_RJ p l c : ok4' p -> is_RC (fst (rj_alfa_bet (N := RN) p)) (snd (rj_alfa_bet (N := RN) p)) c -> RJ_of (rj_next (N := RN) p) l -> RJ_of p (l / 4 + 3 * c).
Proof.
  destruct p as [[[x y] z] r]. intros (hx & hy & hz & hr). rewrite rj_ab_R, rj_next_R by lra. cbn [fst snd RJ_of]. apply (RJ_dup x y z); lra.
Qed.
Lemma box4_ok a b p : 0 < a -> box4 a b p -> ok4' p.
Proof. destruct p as [[[x y] z] r]. intros ha [(hx & hy & hz) hr]. cbn [fst snd] in *. unfold ok4'. lra. Qed.
Lemma rj_ab_box a b p : 0 < a -> box4 a b p -> box2 (16 * (a * a * a)) (16 * (b * b * b)) (rj_alfa_bet (N := RN) p).
Proof.
  destruct p as [[[x y] z] r]. intros ha [(hx & hy & hz) hr]. cbn [fst snd] in *. rewrite rj_ab_R by lra. unfold box2. cbn [fst snd].
  pose proof (lam_box a b x y z ha hx hy hz) as HL.
  assert (Q : forall w, a <= w <= b -> sqrt a <= sqrt w <= sqrt b) by (intros w hw; split; apply sqrt_le_1; lra).
  pose proof (Q x hx) as Qx. pose proof (Q y hy) as Qy. pose proof (Q z hz) as Qz. assert (sa : 0 < sqrt a) by (apply sqrt_lt_R0; lra).
  assert (Ea : sqrt a * sqrt a = a) by (apply sqrt_sqrt; lra). assert (Eb : sqrt b * sqrt b = b) by (apply sqrt_sqrt; lra).
  assert (T1 : a * (3 * sqrt a) <= r * (sqrt x + sqrt y + sqrt z) <= b * (3 * sqrt b)) by (split; apply Rmult_le_compat; lra).
  assert (T2 : sqrt a * sqrt a * sqrt a <= sqrt x * sqrt y * sqrt z <= sqrt b * sqrt b * sqrt b).
  { split; repeat apply Rmult_le_compat; try lra; apply Rmult_le_pos; lra. }
  rewrite Ea, Eb in T2. set (A := r * (sqrt x + sqrt y + sqrt z) + sqrt x * sqrt y * sqrt z) in *.
  assert (T3 : 4 * (a * sqrt a) <= A <= 4 * (b * sqrt b)) by (unfold A; lra).
  assert (0 < a * sqrt a) by (apply Rmult_lt_0_compat; lra).
  replace (16 * (a * a * a)) with (4 * (a * sqrt a) * (4 * (a * sqrt a))) by (replace (4 * (a * sqrt a) * (4 * (a * sqrt a))) with (16 * (a * a * (sqrt a * sqrt a))) by ring; rewrite Ea; ring).
  replace (16 * (b * b * b)) with (4 * (b * sqrt b) * (4 * (b * sqrt b))) by (replace (4 * (b * sqrt b) * (4 * (b * sqrt b))) with (16 * (b * b * (sqrt b * sqrt b))) by ring; rewrite Eb; ring).
  split; [split; apply Rmult_le_compat; lra|].
  assert (T4 : 4 * a <= r + lamR x y z <= 4 * b) by lra. set (B := r + lamR x y z) in *.
  assert (T5 : a * (4 * a * (4 * a)) <= r * (B * B) <= b * (4 * b * (4 * b))).
  { split; repeat apply Rmult_le_compat; try lra; apply Rmult_le_pos; lra. }
  replace (4 * (a * sqrt a) * (4 * (a * sqrt a))) with (16 * (a * a * (sqrt a * sqrt a))) by ring. replace (4 * (b * sqrt b) * (4 * (b * sqrt b))) with (16 * (b * b * (sqrt b * sqrt b))) by ring.
  rewrite Ea, Eb. lra.
Qed.
Lemma rj_err n p a b l : 0 < a -> box4 a b p -> RJ_of (rj_next (N := RN) p) l ->
  Rabs (rj_rhs2 (N := RN) n p - / 4 ^ S n * l) <= / 4 ^ S n * (1104 * (b - a) / (a * a * sqrt a)).
Proof.
  intros ha HB HL. destruct (rj_next_box a b p ha HB) as (a' & h1 & h2 & B'). destruct p as [[[x y] z] r]. destruct HB as [(hx & hy & hz) hr]. cbn [fst snd] in *.
  rewrite rj_rhs2_R by lra. set (mu := (x + y + z + 2 * r) / 5). assert (hm : a <= mu <= b) by (unfold mu; lra).
  rewrite <- Rmult_minus_distr_l, Rabs_mult, Rabs_pos_eq by (apply Rlt_le, Rinv_0_lt_compat, pow4_pos).
  apply Rmult_le_compat_l; [apply Rlt_le, Rinv_0_lt_compat, pow4_pos|].
  assert (sa : 0 < sqrt a) by (apply sqrt_lt_R0; lra). assert (sm : 0 < sqrt mu) by (apply sqrt_lt_R0; lra).
  destruct (rj_next (N := RN) (x, y, z, r)) as [[[x' y'] z'] r']. change (T RN) with R in *. destruct B' as [(kx & ky & kz) kr]. cbn [fst snd RJ_of] in *.
  pose proof (RJ_bounds x' y' z' ltac:(lra) r' l a b ha ltac:(lra) ltac:(lra) ltac:(lra) ltac:(lra) ltac:(lra) ltac:(lra) ltac:(lra) ltac:(lra) HL) as LB.
  destruct (inv_3half_diff a b ha ltac:(lra)) as [D1 D2]. 
  assert (MB : / (b * sqrt b) <= / (mu * sqrt mu) <= / (a * sqrt a)).
  { assert (sqrt a <= sqrt mu <= sqrt b) by (split; apply sqrt_le_1; lra). split; apply Rinv_le_contravar; try (apply Rmult_lt_0_compat; lra); apply Rmult_le_compat; lra. }
  pose proof (rj_poly (1 - x / mu) (1 - y / mu) (1 - z / mu) (1 - r / mu) ((b - a) / a)) as P. cbv zeta in P. fold (rjP (1 - x / mu) (1 - y / mu) (1 - z / mu) (1 - r / mu)) in P.
  assert (B2 : forall w, 0 <= w <= 5 * mu -> Rabs (1 - w / mu) <= 4).
  { intros w hw. pose proof (frac_any mu w 5 ltac:(lra) hw ltac:(lra)) as Q. rewrite Rmax_right in Q by lra. lra. }
  specialize (P (frac_box mu x a b ha hm hx) (frac_box mu y a b ha hm hy) (frac_box mu z a b ha hm hz) (frac_box mu r a b ha hm hr) (B2 x ltac:(unfold mu; lra)) (B2 y ltac:(unfold mu; lra)) (B2 z ltac:(unfold mu; lra)) (B2 r ltac:(unfold mu; lra))).
  set (p := rjP (1 - x / mu) (1 - y / mu) (1 - z / mu) (1 - r / mu)) in *.
  assert (Q : Rabs (/ (mu * sqrt mu) * p) <= 1100 * ((b - a) / (a * a * sqrt a))).
  { rewrite Rabs_mult, Rabs_pos_eq by (apply Rlt_le, Rinv_0_lt_compat, Rmult_lt_0_compat; lra).
    replace (1100 * ((b - a) / (a * a * sqrt a))) with (/ (a * sqrt a) * (1100 * ((b - a) / a))) by (field; lra). apply Rmult_le_compat; auto; [apply Rlt_le, Rinv_0_lt_compat, Rmult_lt_0_compat; lra|apply Rabs_pos|lra]. }
  replace (1104 * (b - a) / (a * a * sqrt a)) with (1104 * ((b - a) / (a * a * sqrt a))) by (field; lra).
  replace (2 * (b - a) / (a * a * sqrt a)) with (2 * ((b - a) / (a * a * sqrt a))) in D2 by (field; lra).
  apply Rabs_le_between in Q. assert (0 <= (b - a) / (a * a * sqrt a)) by (apply Rdiv_le_0_compat; [lra|repeat apply Rmult_lt_0_compat; lra]). apply Rabs_le. lra.
Qed.
(** the value of one entry after [f+1] outer iterations from state [p], accumulated sum [r], inner loops of [K+1] iterations *)
Definition rcK (K : nat) (p : R4t) : R := rc_val (N := RN) (itn K (rc_next (N := RN)) (rj_alfa_bet (N := RN) p)).
Fixpoint rjv (K f n : nat) (p : R4t) (r : R) : R :=
  let r' := r + 3 * / 4 ^ n * rcK K p in
  match f with O => r' + rj_rhs2 (N := RN) n p | S f => rjv K f (S n) (rj_next (N := RN) p) r' end.
Definition MC (a b : R) : R := 3 * (16 * (b * b * b) - 16 * (a * a * a)) / (16 * (a * a * a) * sqrt (16 * (a * a * a))).
Lemma rc_err_box K a b p c : 0 < a -> box4 a b p -> is_RC (fst (rj_alfa_bet (N := RN) p)) (snd (rj_alfa_bet (N := RN) p)) c -> Rabs (rcK K p - c) <= MC a b / 4 ^ K.
Proof.
  intros ha HB HC. unfold rcK, MC. apply rc_it_err; auto; [|apply rj_ab_box; auto]. assert (0 < a * a * a) by (repeat apply Rmult_lt_0_compat; lra). lra.
Qed.
Lemma cube_le a b : 0 < a -> a <= b -> a * a * a <= b * b * b.
Proof. intros. repeat apply Rmult_le_compat; try lra; apply Rmult_le_pos; lra. Qed.
Lemma MC_mono a b a' b' : 0 < a -> a <= a' -> a' <= b' -> b' <= b -> 0 <= MC a' b' <= MC a b.
Proof.
  intros h0 h1 h2 h3. unfold MC. pose proof (cube_le a a' h0 h1). pose proof (cube_le a' b' ltac:(lra) h2). pose proof (cube_le b' b ltac:(lra) h3).
  assert (0 < a * a * a) by (repeat apply Rmult_lt_0_compat; lra).
  set (u := 16 * (a * a * a)) in *. set (u' := 16 * (a' * a' * a')) in *. set (v := 16 * (b * b * b)) in *. set (v' := 16 * (b' * b' * b')) in *.
  assert (0 < u) by (unfold u; lra). assert (u <= u') by (unfold u, u'; lra). assert (v' <= v) by (unfold v, v'; lra). assert (u' <= v') by (unfold u', v'; lra).
  assert (0 < sqrt u') by (apply sqrt_lt_R0; lra). assert (0 < u' * sqrt u') by (apply Rmult_lt_0_compat; lra).
  split; [apply Rdiv_le_0_compat; lra|]. eapply Rle_trans; [apply (div_mono _ u u'); lra|]. unfold Rdiv. apply Rmult_le_compat_r; [|lra].
  apply Rlt_le, Rinv_0_lt_compat, Rmult_lt_0_compat; [lra|apply sqrt_lt_R0; lra].
Qed.
Lemma rjv_err K f : forall n a b p r l, 0 < a -> box4 a b p -> RJ_of p l ->
  Rabs (rjv K f n p r - (r + / 4 ^ n * l)) <= / 4 ^ n * (4 * (MC a b / 4 ^ K) + 1104 * (b - a) / (a * a * sqrt a) / 4 ^ S f / 4 ^ f).
Proof.
  induction f as [|f IH]; intros n a b p r l ha HB HL; cbn [rjv].
  - pose proof (box4_ok a b p ha HB) as OK. destruct (rj_ab_pos p OK) as [P1 P2].
    destruct (RC_exists _ _ ltac:(apply Rlt_le, P1) P2) as [c HC].
    destruct (rj_next_box a b p ha HB) as (a' & h1 & h2 & B'). pose proof (box4_ok a' _ _ ltac:(lra) B') as OK'.
    assert (EX : exists l', RJ_of (rj_next (N := RN) p) l').
    { destruct (rj_next (N := RN) p) as [[[x y] z] r0]. change (T RN) with R in *. destruct OK' as (k1 & k2 & k3 & k4). apply (RJ_exists x y z r0); lra. }
    destruct EX as [l' HL']. pose proof (rj_next_RJ p l' c OK HC HL') as E.
    assert (EL : l = l' / 4 + 3 * c). { destruct p as [[[x y] z] r0]. exact (is_RJ_unique _ _ _ _ _ _ HL E). }
    pose proof (rc_err_box K a b p c ha HB HC) as E1. pose proof (rj_err n p a b l' ha HB HL') as E2. rewrite EL.
    pose proof (pow4_pos n) as p4. pose proof (pow4_pos K) as pk.
    replace (r + 3 * / 4 ^ n * rcK K p + rj_rhs2 (N := RN) n p - (r + / 4 ^ n * (l' / 4 + 3 * c))) with (3 * / 4 ^ n * (rcK K p - c) + (rj_rhs2 (N := RN) n p - / 4 ^ S n * l')) by (cbn [pow]; field; lra).
    eapply Rle_trans; [apply Rabs_triang|]. rewrite Rabs_mult, (Rabs_pos_eq (3 * / 4 ^ n)) by (apply Rmult_le_pos; [lra|apply Rlt_le, Rinv_0_lt_compat; lra]).
    assert (i4 : 0 < / 4 ^ n) by (apply Rinv_0_lt_compat; lra).
    assert (0 <= MC a b / 4 ^ K) by (eapply Rle_trans; [apply Rabs_pos|exact E1]).
    assert (3 * / 4 ^ n * Rabs (rcK K p - c) <= 3 * / 4 ^ n * (MC a b / 4 ^ K)) by (apply Rmult_le_compat_l; lra).
    assert (0 <= / 4 ^ n * (MC a b / 4 ^ K)) by (apply Rmult_le_pos; lra).
    replace (/ 4 ^ S n * (1104 * (b - a) / (a * a * sqrt a))) with (/ 4 ^ n * (1104 * (b - a) / (a * a * sqrt a) / 4 ^ 1 / 4 ^ 0)) in E2 by (assert (0 < sqrt a) by (apply sqrt_lt_R0; lra); cbn [pow]; field; repeat split; lra). lra.
  - pose proof (box4_ok a b p ha HB) as OK. destruct (rj_ab_pos p OK) as [P1 P2].
    destruct (RC_exists _ _ ltac:(apply Rlt_le, P1) P2) as [c HC].
    destruct (rj_next_box a b p ha HB) as (a' & h1 & h2 & B'). pose proof (box4_ok a' _ _ ltac:(lra) B') as OK'.
    assert (EX : exists l', RJ_of (rj_next (N := RN) p) l').
    { destruct (rj_next (N := RN) p) as [[[x y] z] r0]. change (T RN) with R in *. destruct OK' as (k1 & k2 & k3 & k4). apply (RJ_exists x y z r0); lra. }
    destruct EX as [l' HL']. pose proof (rj_next_RJ p l' c OK HC HL') as E.
    assert (EL : l = l' / 4 + 3 * c). { destruct p as [[[x y] z] r0]. exact (is_RJ_unique _ _ _ _ _ _ HL E). }
    assert (hab : a <= b) by (destruct HB as [HB _]; exact (box3_le _ _ _ HB)).
    pose proof (rc_err_box K a b p c ha HB HC) as E1. pose proof (IH (S n) a' _ _ (r + 3 * / 4 ^ n * rcK K p) l' ltac:(lra) B' HL') as E2. rewrite EL.
    pose proof (pow4_pos n) as p4. pose proof (pow4_pos K) as pk. pose proof (pow4_pos f) as pf.
    replace (rjv K f (S n) (rj_next (N := RN) p) (r + 3 * / 4 ^ n * rcK K p) - (r + / 4 ^ n * (l' / 4 + 3 * c))) with
      (3 * / 4 ^ n * (rcK K p - c) + (rjv K f (S n) (rj_next (N := RN) p) (r + 3 * / 4 ^ n * rcK K p) - (r + 3 * / 4 ^ n * rcK K p + / 4 ^ S n * l'))) by (cbn [pow]; field; lra).
    eapply Rle_trans; [apply Rabs_triang|]. rewrite Rabs_mult, (Rabs_pos_eq (3 * / 4 ^ n)) by (apply Rmult_le_pos; [lra|apply Rlt_le, Rinv_0_lt_compat; lra]).
    assert (i4 : 0 < / 4 ^ n) by (apply Rinv_0_lt_compat; lra).
    assert (3 * / 4 ^ n * Rabs (rcK K p - c) <= 3 * / 4 ^ n * (MC a b / 4 ^ K)) by (apply Rmult_le_compat_l; lra).
    replace (a' + (b - a) / 4 - a') with ((b - a) / 4) in E2 by ring.
    destruct (MC_mono a b a' (a' + (b - a) / 4) ha h1 ltac:(lra) h2) as [M0 M1].
    assert (M2 : MC a' (a' + (b - a) / 4) / 4 ^ K <= MC a b / 4 ^ K) by (unfold Rdiv; apply Rmult_le_compat_r; [apply Rlt_le, Rinv_0_lt_compat; lra|lra]).
    assert (sa : 0 < sqrt a) by (apply sqrt_lt_R0; lra). assert (sqrt a <= sqrt a') by (apply sqrt_le_1; lra).
    assert (T1 : 1104 * ((b - a) / 4) / (a' * a' * sqrt a') <= 1104 * ((b - a) / 4) / (a * a * sqrt a)).
    { unfold Rdiv at 1 3. apply Rmult_le_compat_l; [lra|]. apply Rinv_le_contravar; [repeat apply Rmult_lt_0_compat; lra|]. repeat apply Rmult_le_compat; try lra; apply Rmult_le_pos; lra. }
    assert (T2 : 1104 * ((b - a) / 4) / (a' * a' * sqrt a') / 4 ^ S f / 4 ^ f <= 1104 * ((b - a) / 4) / (a * a * sqrt a) / 4 ^ S f / 4 ^ f).
    { unfold Rdiv at 1 2 5 6. repeat (apply Rmult_le_compat_r; [apply Rlt_le, Rinv_0_lt_compat, pow4_pos|]). exact T1. }
    eapply Rle_trans; [apply Rplus_le_compat; [exact H|exact E2]|].
    assert (i4' : 0 < / 4 ^ S n) by (apply Rinv_0_lt_compat, pow4_pos).
    eapply Rle_trans; [apply Rplus_le_compat_l, (Rmult_le_compat_l (/ 4 ^ S n) _ (4 * (MC a b / 4 ^ K) + 1104 * ((b - a) / 4) / (a * a * sqrt a) / 4 ^ S f / 4 ^ f)); lra|].
    apply Req_le. cbn [pow]. field. repeat split; lra.
Qed.
