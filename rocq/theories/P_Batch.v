(** * C44: dependence of the kernels on the other points of the array *)
From Coquelicot Require Import Coquelicot.
From Coq Require Import ZArith List Bool Arith Lia Reals Lra Psatz.
From Verif Require Import Num NumR NumX M_Elliptic M_Ring M_Doublet M_Cylinder M_Skewed L_List L_X L_Carlson Spec SpecBS L_Dupl L_Dupl4 P_Elliptic P_Accuracy.
Import ListNotations.
Local Open Scope R_scope.
Local Notation len := List.length.

(** the value at a point is a function of that point alone *)
Definition pointwise {A B} (k : list A -> list B) : Prop := exists g, forall pts, k pts = map g pts.

Section Pointwise.
  Context {N : Num}.
  Lemma map2_self {A B C} (f : A -> B -> C) (g : A -> B) l : map2 f l (map g l) = map (fun a => f a (g a)) l.
  Proof. induction l as [|a l IH]; cbn [map map2]; [|rewrite IH]; reflexivity. Qed.
  Lemma scatter_filter_map {A B} (t : A -> bool) (f g : A -> B) l : scatter (map t l) (map f (filter t l)) (map g l) = map (fun a => if t a then f a else g a) l.
  Proof. induction l as [|a l IH]; [reflexivity|]. cbn [map scatter filter]. destruct (t a); cbn [map scatter]; rewrite IH; reflexivity. Qed.
  Lemma pointwise_map2 {A B C} (h : A -> B -> C) (k : list A -> list B) : pointwise k -> pointwise (fun pts => map2 h pts (k pts)).
  Proof. intros [g Hg]. exists (fun p => h p (g p)). intros pts. rewrite Hg. apply map2_self. Qed.
  Lemma vc_polar_pointwise (f : N * N -> N) gamma Rr eps : pointwise (vc_tang_polar_gen (map f) gamma Rr eps).
  Proof.
    exists (fun p => let rz := (vc_r p, snd p) in if vc_normal Rr rz then vc_reg gamma eps Rr rz (f (vc_nm eps Rr rz)) else vc_special gamma Rr rz).
    intros pts. unfold vc_tang_polar_gen. set (rz := map (fun p : N * N * N => (vc_r p, snd p)) pts). rewrite gather_map_filter.
    rewrite (map_map (vc_nm eps Rr) f), map2_self, scatter_filter_map. unfold rz. rewrite map_map. reflexivity.
  Qed.
  Lemma vc_tang_pointwise (f : N * N -> N) gamma Rr eps : pointwise (vc_tang_u_gen (map f) gamma Rr eps).
  Proof. unfold vc_tang_u_gen. apply pointwise_map2, vc_polar_pointwise. Qed.
  Lemma vc_longi_pointwise (f : N * N -> N) gl Rr po : pointwise (vc_longi_u_gen (map f) gl Rr po).
  Proof.
    exists (fun p => let '(r, psi, z) := to_polar p in let u := vc_longi_upsi gl Rr (r, z) (f (vc_longi_nm Rr (r, z))) in
      if po then (nZ N 0, u, nZ N 0) else (nmul N (nopp N u) (nsin N psi), nmul N u (ncos N psi), nZ N 0)).
    intros pts. unfold vc_longi_u_gen, vc_longi_u_polar_gen. induction pts as [|[[x y] z] pts IH]; [reflexivity|]. cbn [map map2]. rewrite IH. reflexivity.
  Qed.
  Lemma vc_raw_pointwise (f : N * N -> N) gamma Rr : pointwise (cylinder_tang_semi_inf_u_raw_gen (map f) gamma Rr).
  Proof.
    exists (fun p => vc_raw_pt gamma Rr (vc_r p, snd p) (f (vc_raw_nm Rr (vc_r p, snd p)))).
    intros pts. unfold cylinder_tang_semi_inf_u_raw_gen. rewrite map_map, map_map. induction pts as [|p pts IH]; [reflexivity|]. cbn [map map2]. rewrite IH. reflexivity.
  Qed.
  Lemma cyl_fin_pointwise (f : N * N -> N) gamma Rr z1 z2 : pointwise (cylinder_tang_u_gen (map f) gamma Rr z1 z2).
  Proof.
    unfold cylinder_tang_u_gen. apply pointwise_map2.
    exists (fun p => cyl_fin_pt gamma Rr z1 z2 (vc_r p, snd p) (f (cyl_fin_nm Rr z1 (vc_r p, snd p))) (f (cyl_fin_nm Rr z2 (vc_r p, snd p)))).
    intros pts. unfold cylinder_tang_polar_gen. induction pts as [|p pts IH]; [reflexivity|]. cbn [map map2]. rewrite IH. reflexivity.
  Qed.
  (** superpositions of pointwise fields are pointwise *)
  Lemma pointwise_fadd (k1 k2 : list (N * N * N) -> list (N * N * N)) : pointwise k1 -> pointwise k2 -> pointwise (fun pts => fadd (k1 pts) (k2 pts)).
  Proof. intros [g1 H1] [g2 H2]. exists (fun p => vadd (g1 p) (g2 p)). intros pts. rewrite H1, H2. unfold fadd. rewrite map2_map_l, map2_self. reflexivity. Qed.
  Lemma pointwise_pre {A B C} (h : A -> B) (k : list B -> list C) : pointwise k -> pointwise (fun pts => k (map h pts)).
  Proof. intros [g H]. exists (fun p => g (h p)). intros pts. rewrite H, map_map. reflexivity. Qed.
  Lemma pointwise_fold {A} (step : A -> list (N * N * N) -> list (N * N * N) -> list (N * N * N)) :
    (forall a k, pointwise k -> pointwise (fun pts => step a pts (k pts))) ->
    forall (l : list A) k, pointwise k -> pointwise (fun pts => fold_left (fun u a => step a pts u) l (k pts)).
  Proof. intros HS l. induction l as [|a l IH]; intros k Hk; cbn [fold_left]; auto. Qed.
  Lemma fzero_pointwise : pointwise (fzero (N := N)).
  Proof. exists (fun _ => (nZ N 0, nZ N 0, nZ N 0)). reflexivity. Qed.
  Lemma vcs_tang_pointwise (f : N * N -> N) eps ground cyls : pointwise (vcs_tang_u_gen (map f) eps ground cyls).
  Proof.
    unfold vcs_tang_u_gen.
    assert (INNER : forall (h : N * N * N -> N * N * N) grs k, pointwise k -> pointwise (fun pts => fold_left (fun u gr =>
       if nlt N (nZ N 0) (nabs N (fst gr)) then fadd u (vc_tang_u_gen (map f) (fst gr) (snd gr) eps (map h pts)) else u) grs (k pts))).
    { intros h grs. apply (pointwise_fold (fun gr pts u => if nlt N (nZ N 0) (nabs N (fst gr)) then fadd u (vc_tang_u_gen (map f) (fst gr) (snd gr) eps (map h pts)) else u)).
      intros gr k Hk. destruct (nlt N (nZ N 0) (nabs N (fst gr))); auto. apply pointwise_fadd; auto. apply (pointwise_pre h), vc_tang_pointwise. }
    apply (pointwise_fold (fun cyl pts u => fold_left (fun u Y => fold_left (fun u gr =>
       if nlt N (nZ N 0) (nabs N (fst gr)) then fadd u (vc_tang_u_gen (map f) (fst gr) (snd gr) eps Y) else u) (snd cyl) u) (ylist ground (fst cyl) pts) u)); [|apply fzero_pointwise].
    intros cyl k Hk. unfold ylist. destruct ground; cbn [fold_left].
    - rewrite ?map_map. apply (INNER (shift (fst cyl)) (snd cyl)) in Hk. apply (INNER (fun p => mirror_pt (snd (fst (fst cyl))) (shift (fst cyl) p)) (snd cyl)) in Hk.
      destruct Hk as [g Hg]. exists g. intros pts. rewrite <- Hg. rewrite map_map. reflexivity.
    - apply (INNER (shift (fst cyl)) (snd cyl)). exact Hk.
  Qed.
End Pointwise.
(** C44, partial: the only coupling between the points of a cylinder evaluation is the third-kind integral: with a routine that is evaluated
    element by element (in any arithmetic, floats included), the value at a point depends on that point alone *)
Theorem C44_pointwise_partial {N : Num} (f : N * N -> N) :
  (forall gamma Rr eps, pointwise (vc_tang_u_gen (map f) gamma Rr eps)) /\
  (forall gl Rr po, pointwise (vc_longi_u_gen (map f) gl Rr po)) /\
  (forall gamma Rr, pointwise (cylinder_tang_semi_inf_u_raw_gen (map f) gamma Rr)) /\
  (forall gamma Rr z1 z2, pointwise (cylinder_tang_u_gen (map f) gamma Rr z1 z2)) /\
  (forall eps ground cyls, pointwise (vcs_tang_u_gen (map f) eps ground cyls)).
Proof.
  split; [intros; apply vc_tang_pointwise|]. split; [intros; apply vc_longi_pointwise|]. split; [intros; apply vc_raw_pointwise|]. split; [intros; apply cyl_fin_pointwise|].
  intros; apply vcs_tang_pointwise.
Qed.
(** ** the code's routine is not: its residual test looks at the whole array *)
Lemma alone_large : exists v, ellipticPiCarlson (N := XN) [(Fin 0, Fin 0)] = [Fin v] /\ 1.41 < v.
Proof.
  destruct (Pi_single_n0 0 ltac:(lra)) as (v & E1 & E2). exists v. split; [exact E2|]. replace (1 - 0) with 1 in E1 by ring.
  pose proof (RF_lift RESr ITMAX [1] ltac:(congruence) ltac:(constructor; [lra|constructor])) as E. cbn [map] in E. unfold ellipticRF in E1. rewrite RES_fin in E1. rewrite E in E1.
  assert (rs : RESr < 1) by (unfold RESr; lra).
  assert (INV : forall k, exists x y, itn (S k) (rf_next (N := RN)) (0, 1, 1) = (x, y, y) /\ 1 / 4 <= x /\ x <= y /\ y <= 1 / 2).
  { induction k as [|k (x & y & IH & h1 & h2 & h3)].
    - cbn [itn]. rewrite rf_next_R by lra. unfold lamR. rewrite sqrt_0, sqrt_1. do 2 eexists. split; [reflexivity|]. lra.
    - rewrite itn_S, IH. rewrite rf_next_R by lra. exists ((x + lamR x y y) / 4), ((y + lamR x y y) / 4). split; [reflexivity|].
      pose proof (lam_box x y x y y ltac:(lra) ltac:(lra) ltac:(lra) ltac:(lra)). lra. }
  assert (LOW : forall k, 1.41 < rf_val (N := RN) (itn (S k) (rf_next (N := RN)) (0, 1, 1))).
  { intros k. destruct (INV k) as (x & y & -> & h1 & h2 & h3). rewrite rf_val_R by lra. set (mu := (x + y + y) / 3). assert (hm : 1 / 4 <= mu <= 1 / 2) by (unfold mu; lra).
    assert (X0 : 0 <= 1 - x / mu) by (pose proof (ratio_le x mu 1 ltac:(lra) ltac:(unfold mu; lra)); lra).
    assert (EY : 1 - y / mu = - (1 - x / mu) / 2) by (unfold mu; field; lra). rewrite EY. set (t := 1 - x / mu) in *.
    assert (P0 : 0 <= rfP t (- t / 2) (- t / 2)).
    { unfold rfP. replace ((t * t + - t / 2 * (- t / 2) + - t / 2 * (- t / 2)) / 4) with (3 / 8 * (t * t)) by field.
      replace ((t * t * t + - t / 2 * (- t / 2) * (- t / 2) + - t / 2 * (- t / 2) * (- t / 2)) / 6) with (1 / 8 * (t * t * t)) by field.
      assert (0 <= t * t) by nra. assert (0 <= t * t * t) by (apply Rmult_le_pos; lra).
      set (a := t * t) in *. set (b := t * a). set (c := a * t) in *. assert (0 <= a * a) by nra. assert (0 <= a * c) by (apply Rmult_le_pos; lra). assert (0 <= a * a * a) by (apply Rmult_le_pos; lra). assert (0 <= c * c) by nra.
      nra. }
    assert (I : 1.414 <= / sqrt mu).
    { rewrite <- (Rinv_inv 1.414). apply Rinv_le_contravar; [apply sqrt_lt_R0; lra|]. apply Rsqr_incr_0_var; [|lra]. unfold Rsqr. rewrite sqrt_sqrt by lra. lra. }
    apply (Rlt_le_trans _ (1.414 * 1)); [lra|]. apply (Rmult_le_compat 1.414 _ 1); lra. }
  assert (ER : exists k, RF_tol (N := RN) RESr ITMAX [1] = [rf_val (N := RN) (itn (S k) (rf_next (N := RN)) (0, 1, 1))]).
  { change (exists k, rf_loop (N := RN) RESr 20 (1 : R) [((0, 1, 1) : R * R * R)] [(0 : R)] = [rf_val (N := RN) (itn (S k) (rf_next (N := RN)) (0, 1, 1))]).
    rewrite rf_loop1 by exact rs.
    assert (V0 : 1 <= rf_val (N := RN) (0, 1, 1)).
    { rewrite rf_val_R by lra. assert (I : 1 <= / sqrt ((0 + 1 + 1) / 3)). { rewrite <- Rinv_1 at 1. apply Rinv_le_contravar; [apply sqrt_lt_R0; lra|]. apply Rsqr_incr_0_var; [|lra]. unfold Rsqr. rewrite sqrt_sqrt by lra. lra. }
      apply (Rle_trans _ (1 * 1)); [lra|]. apply (Rmult_le_compat 1 _ 1); try lra. replace ((0 + 1 + 1) / 3) with (2 / 3) by field. unfold rfP. lra. }
    destruct (rf_loop_iter (N := RN) RESr 19 (Rabs ((rf_val (N := RN) (0, 1, 1) : R) - 0)) [rf_next (N := RN) (0, 1, 1)] [rf_val (N := RN) (0, 1, 1)]) as [H|[H|(k & _ & H)]].
    - discriminate.
    - exfalso. apply Rltb_false in H. change (T RN) with R in *. rewrite Rabs_pos_eq in H by lra. lra.
    - exists k. exact H. }
  destruct ER as [k ER]. rewrite ER in E1. cbn [map] in E1. assert (E3 : v = rf_val (N := RN) (itn (S k) (rf_next (N := RN)) (0, 1, 1))) by congruence. rewrite E3. apply LOW.
Qed.
Lemma first_val : rf_val (N := RN) (0, 1, 1) < 1.4.
Proof.
  rewrite rf_val_R by lra. replace ((0 + 1 + 1) / 3) with (2 / 3) by field.
  assert (P : 1 + rfP (1 - 0 / (2 / 3)) (1 - 1 / (2 / 3)) (1 - 1 / (2 / 3)) <= 1.1411) by (unfold rfP; lra).
  assert (P0 : 0 <= 1 + rfP (1 - 0 / (2 / 3)) (1 - 1 / (2 / 3)) (1 - 1 / (2 / 3))) by (unfold rfP; lra).
  assert (I : / sqrt (2 / 3) <= 1.2248).
  { rewrite <- (Rinv_inv 1.2248). apply Rinv_le_contravar; [lra|]. apply Rsqr_incr_0_var; [|apply sqrt_pos]. unfold Rsqr. rewrite sqrt_sqrt by lra. lra. }
  assert (0 < / sqrt (2 / 3)) by (apply Rinv_0_lt_compat, sqrt_lt_R0; lra).
  apply (Rle_lt_trans _ (1.2248 * 1.1411)); [|lra]. apply Rmult_le_compat; lra.
Qed.
Lemma rs_true : nlt XN (Fin RESr) (Fin 1) = true.
Proof. apply Rltb_true. unfold RESr. lra. Qed.
Lemma rf_loop_nan (p q : T XN * T XN * T XN) (a : R) k : rf_val (N := XN) p = Fin a -> rf_val (N := XN) q = NaN ->
  rf_loop (N := XN) (Fin RESr) (S (S k)) (Fin 1) [p; q] [Fin 0; Fin 0] = [Fin a; NaN].
Proof.
  intros V1 V2. cbn [rf_loop]. rewrite rs_true. cbn [map]. rewrite V1, V2.
  replace (resid (N := XN) [Fin a; NaN] [Fin 0; Fin 0]) with NaN by reflexivity. reflexivity.
Qed.
Lemma rc_loop_nan (p q : T XN * T XN) (a : R) k : rc_val (N := XN) p = Fin a -> rc_val (N := XN) q = NaN ->
  rc_loop (N := XN) (Fin RESr) (S (S k)) (Fin 1) [p; q] [Fin 0; Fin 0] = [Fin a; NaN].
Proof.
  intros V1 V2. cbn [rc_loop]. rewrite rs_true. cbn [map]. rewrite V1, V2.
  replace (resid (N := XN) [Fin a; NaN] [Fin 0; Fin 0]) with NaN by reflexivity. reflexivity.
Qed.
Lemma rj_loop_nan (p q : T XN * T XN * T XN * T XN) (a c : R) k : rj_rhs2 (N := XN) 0 p = Fin a -> rj_rhs2 (N := XN) 0 q = NaN ->
  rc_val (N := XN) (rj_alfa_bet (N := XN) p) = Fin c -> rc_val (N := XN) (rj_alfa_bet (N := XN) q) = NaN ->
  exists j u, rj_loop (N := XN) (Fin RESr) 20 (S (S k)) 0 (Fin 1) [p; q] [Fin 0; Fin 0] [Fin 0; Fin 0] = [Fin j; u].
Proof.
  intros A1 A2 C1 C2. cbn [rj_loop]. rewrite rs_true. unfold rj_rhs1, RC_tol. cbn [map]. change (nZ XN 0) with (Fin 0). change (nZ XN 1) with (Fin 1).
  pose proof (rc_loop_nan _ _ c 18 C1 C2) as RC. change (T XN) with X in *. rewrite RC. cbn [map2]. rewrite A1, A2.
  match goal with |- context [resid ?x ?y] => replace (resid (N := XN) x y) with NaN by reflexivity end. do 2 eexists. reflexivity.
Qed.
Theorem C44_batch_refuted : exists v w u, ellipticPiCarlson (N := XN) [(Fin 0, Fin 0)] = [Fin v] /\
  ellipticPiCarlson (N := XN) [(Fin 0, Fin 0); (Fin 0, NaN)] = [Fin w; u] /\ w + 0.01 < v.
Proof.
  destruct alone_large as (v & E & L). exists v, (rf_val (N := RN) (0, 1, 1)).
  assert (EF : RF_tol (N := XN) (RES (N := XN)) ITMAX [Fin (1 - 0); NaN] = [Fin (rf_val (N := RN) (0, 1 - 0, 1)); NaN]).
  { rewrite RES_fin. apply (rf_loop_nan (Fin 0, Fin (1 - 0), Fin 1) (Fin 0, NaN, Fin 1) _ 18); [|reflexivity].
    apply (rf_val_lift (0, 1 - 0, 1)); unfold ok3; lra. }
  assert (EJ : exists j u, RJ_tol (N := XN) (RES (N := XN)) ITMAX [(Fin (1 - 0), Fin (1 - 0)); (NaN, Fin (1 - 0))] = [Fin j; u]).
  { assert (O4 : ok4 (0, 1 - 0, 1, 1 - 0)) by (unfold ok4, ok3; cbn; lra). destruct (rj_ab_lift (0, 1 - 0, 1, 1 - 0) O4) as [AB OK2].
    destruct (rj_loop_nan (F4 (0, 1 - 0, 1, 1 - 0)) (Fin 0, NaN, Fin 1, Fin (1 - 0)) (rj_rhs2 (N := RN) 0 (0, 1 - 0, 1, 1 - 0)) (rc_val (N := RN) (rj_alfa_bet (N := RN) (0, 1 - 0, 1, 1 - 0))) 18) as (j & u & EJ).
    - apply rj_rhs2_lift. exact O4.
    - reflexivity.
    - rewrite AB. apply rc_val_lift. exact OK2.
    - unfold rj_alfa_bet, lam3. xn. rewrite !xsqrt_fin by lra. reflexivity.
    - exists j, u. rewrite RES_fin. unfold RJ_tol, ITMAX. cbn [map fst snd]. change (nZ XN 0) with (Fin 0). change (nZ XN 1) with (Fin 1).
      replace (nlt XN (Fin 0) (Fin (1 - 0))) with true by (symmetry; apply Rltb_true; lra). cbn [gather map].
      transitivity (scatter [true; true] [Fin j; u] [ninf XN; ninf XN]); [|reflexivity]. f_equal. exact EJ. }
  destruct EJ as (j & u & EJ). eexists. split; [exact E|]. split.
  - unfold ellipticPiCarlson, Pi_tol. cbn [map fst snd]. change (nsub XN (nZ XN 1) (Fin 0)) with (Fin (1 - 0)). change (nsub XN (nZ XN 1) NaN) with NaN.
    change (T XN) with X in *. rewrite EF, EJ. cbn [map2 fst snd]. f_equal. replace (1 - 0) with 1 by ring. xn. f_equal. field.
  - pose proof first_val. change (T RN) with R in *. lra.
Qed.
