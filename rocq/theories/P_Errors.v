(** * C110-C113: error measures, wind coordinates and colour maps of the article scripts *)
From Coquelicot Require Import Coquelicot.
From Coq Require Import ZArith List Bool Arith Lia String Reals Lra Psatz.
From Verif Require Import Num NumR NumX Spec M_Elliptic M_Line M_Doublet M_Misc M_Cylinder M_Skewed
  M_Solver M_Turbine M_Farm M_Helpers L_List L_Calc L_X L_Turbine L_State L_Farm L_Geom L_Angles L_TurbineX L_TurbineY L_Multi L_Built L_Layout P_Turbine P_Line P_Skewed P_Cylinder2 P_Grid P_Farm P_Centre P_Helpers P_FarmHelp P_Nearest.
Import ListNotations.
Local Notation len := List.length.
Local Open Scope R_scope.

(** ** C110: rsquare *)
Definition mean (l : list R) : R := lsum l / INR (len l).
(** sum of squared residuals, and of squared deviations from m *)
Definition ssq (y f : list R) : R := lsum (map2 (fun a b => (a - b) * (a - b)) y f).
Definition dev (m : R) (y : list R) : R := lsum (map (fun a => (a - m) * (a - m)) y).
Lemma ssq_pos y : forall f, 0 <= ssq y f.
Proof. unfold ssq. induction y as [|a y IH]; intros [|b f]; cbn [map2]; try (cbn; lra). change (lsum (?a :: ?l)) with (a + lsum l). pose proof (IH f). pose proof (Rle_0_sqr (a - b)) as Q. unfold Rsqr in Q. lra. Qed.
Lemma ssq_0 y : forall f, len y = len f -> (ssq y f = 0 <-> y = f).
Proof.
  induction y as [|a y IH]; intros [|b f] HL; try discriminate; [split; [reflexivity|intros; reflexivity]|].
  change (ssq (a :: y) (b :: f)) with ((a - b) * (a - b) + ssq y f). pose proof (ssq_pos y f) as P. pose proof (Rle_0_sqr (a - b)) as Q. unfold Rsqr in Q. split.
  - intros H. assert (Z : (a - b) * (a - b) = 0) by lra. assert (ssq y f = 0) by lra. apply IH in H0; [|cbn in HL; lia]. subst f. f_equal.
    destruct (Rmult_integral _ _ Z); lra.
  - intros E. injection E as -> <-. rewrite (proj2 (IH y eq_refl)) by reflexivity. ring.
Qed.
Lemma dev_pos m y : 0 <= dev m y.
Proof. unfold dev. induction y as [|a y IH]; cbn [map]; [cbn; lra|]. change (lsum (?a :: ?l)) with (a + lsum l). pose proof (Rle_0_sqr (a - m)) as Q. unfold Rsqr in Q. lra. Qed.
Lemma dev_0 m y : dev m y = 0 <-> forall a, In a y -> a = m.
Proof.
  induction y as [|a y IH]; [split; [intros _ ? []|reflexivity]|]. change (dev m (a :: y)) with ((a - m) * (a - m) + dev m y). pose proof (dev_pos m y) as P. pose proof (Rle_0_sqr (a - m)) as Q. unfold Rsqr in Q. split.
  - intros H b [<-|Hb]; [assert (Z : (a - m) * (a - m) = 0) by lra; destruct (Rmult_integral _ _ Z); lra|apply IH; auto; lra].
  - intros H. rewrite (H a) by (left; auto). rewrite (proj2 IH) by (intros; apply H; right; auto). ring.
Qed.
Lemma filter_all {A} (p : A -> bool) l : (forall x, In x l -> p x = true) -> filter p l = l.
Proof. induction l as [|x l IH]; intros H; [reflexivity|]. cbn [filter]. rewrite (H x) by (left; auto). f_equal. apply IH. intros; apply H; right; auto. Qed.
Lemma pairs_fst (y : list XN) : forall f : list XN, len y = len f -> map fst (map2 pair y f) = y.
Proof. induction y as [|a y IH]; intros [|b f] H; try discriminate; [reflexivity|]. cbn [map2 map fst]. f_equal. apply IH. exact (eq_add_S _ _ H). Qed.
Lemma pairs_snd (y : list XN) : forall f : list XN, len y = len f -> map snd (map2 pair y f) = f.
Proof. induction y as [|a y IH]; intros [|b f] H; try discriminate; [reflexivity|]. cbn [map2 map snd]. f_equal. apply IH. exact (eq_add_S _ _ H). Qed.
Lemma in_pairs (y : list XN) : forall f : list XN, forall p, In p (map2 pair y f) -> In (fst p) y /\ In (snd p) f.
Proof. induction y as [|a y IH]; intros [|b f] p H; try contradiction. cbn [map2] in H. destruct H as [<-|H]; [split; left; auto|]. destruct (IH f p H). split; right; auto. Qed.
Lemma rsquare_fin y f c : len y = len f -> y <> [] ->
  rsquare (N := XN) (map Fin y) (map Fin f) c =
  Ok (let q := xdiv (Fin (ssq y f)) (Fin (dev (if c then mean y else 0) y)) in
      let r := xsub (Fin 1) q in
      if c then if xlt (Fin 0) r then r else Fin 0 else if xlt r (Fin 0) then Fin 0 else r,
      Fin (sqrt (ssq y f / INR (len y)))).
Proof.
  intros HL HN. unfold rsquare. rewrite !map_length. replace (Nat.eqb (len y) (len f)) with true by (symmetry; apply Nat.eqb_eq; auto). cbn [negb].
  set (fl := filter _ _). assert (E : fl = map2 pair (map Fin y : list XN) (map Fin f : list XN)).
  { unfold fl. apply filter_all. intros p Hp. apply in_pairs in Hp. destruct Hp as (A & B). apply in_map_iff in A. apply in_map_iff in B. destruct A as (a & <- & _), B as (b & <- & _).
    rewrite !isnan_fin. reflexivity. }
  rewrite E. clear E fl. nT. rewrite pairs_fst, pairs_snd by (rewrite !map_length; auto).
  assert (ES : map2 (fun a b : XN => sq (nsub XN a b)) (map Fin y) (map Fin f) = map Fin (map2 (fun a b => (a - b) * (a - b)) y f)) by (apply map2_fin; reflexivity).
  match goal with |- context [map2 ?g (map Fin y) (map Fin f)] => change (map2 g (map Fin y) (map Fin f)) with (map2 (fun a b : XN => sq (nsub XN a b)) (map Fin y) (map Fin f)) end.
  rewrite ES, nsum_fin. change (lsum (map2 _ y f)) with (ssq y f).
  assert (NE : map2 (fun a b => (a - b) * (a - b)) y f <> []) by (destruct y; [contradiction|]; destruct f; discriminate).
  rewrite (np_mean_fin _ NE). rewrite map2_length. rewrite <- HL, Nat.min_id. change (lsum (map2 _ y f)) with (ssq y f).
  assert (N0 : 0 < INR (len y)) by (apply lt_0_INR; destruct y; [contradiction|cbn; lia]).
  change (nsqrt XN) with xsqrt. rewrite xsqrt_fin by (apply Rdiv_le_0_compat; auto using ssq_pos).
  f_equal. f_equal. destruct c; cbv beta iota zeta.
  - rewrite (np_mean_fin _ HN). fold (mean y).
    assert (ED : map (fun v : XN => sq (nsub XN v (Fin (mean y)))) (map Fin y) = map Fin (map (fun a => (a - mean y) * (a - mean y)) y)) by (rewrite !map_map; reflexivity).
    match goal with |- context [nsum (map ?g (map Fin y))] => change (map g (map Fin y)) with (map (fun v : XN => sq (nsub XN v (Fin (mean y)))) (map Fin y)) end.
    rewrite ED, nsum_fin. reflexivity.
  - assert (ED : map (sq (N := XN)) (map Fin y) = map Fin (map (fun a => (a - 0) * (a - 0)) y)) by (rewrite !map_map; apply map_ext; intros a; cbn; f_equal; ring).
    match goal with |- context [nsum (map ?g (map Fin y))] => change (map g (map Fin y)) with (map (sq (N := XN)) (map Fin y)) end.
    rewrite ED, nsum_fin. reflexivity.
Qed.
(** [base]: the mean of the data (constant term) or 0 *)
Definition base (c : bool) (y : list R) : R := if c then mean y else 0.
Theorem C110_rsquare : forall y f c, len y = len f -> y <> [] -> dev (base c y) y <> 0 ->
  exists r2 rmse, rsquare (N := XN) (map Fin y) (map Fin f) c = Ok (Fin r2 : XN, Fin rmse : XN) /\
    r2 = Rmax 0 (1 - ssq y f / dev (base c y) y) /\ rmse = sqrt (ssq y f / INR (len y)) /\
    0 <= r2 <= 1 /\ (r2 = 1 <-> y = f) /\ (rmse = 0 <-> y = f).
Proof.
  intros y f c HL HN HD. rewrite rsquare_fin by auto. fold (base c y). set (D := dev (base c y) y) in *. set (S := ssq y f).
  assert (PD : 0 < D) by (pose proof (dev_pos (base c y) y); unfold D in *; lra). assert (PS : 0 <= S) by apply ssq_pos.
  assert (N0 : 0 < INR (len y)) by (apply lt_0_INR; destruct y; [contradiction|cbn; lia]).
  assert (Q0 : 0 <= S / D) by (apply Rdiv_le_0_compat; auto).
  exists (Rmax 0 (1 - S / D)), (sqrt (S / INR (len y))). split.
  { cbv zeta. rewrite xdiv_fin by lra. cbn [xsub xadd xopp]. f_equal. f_equal. destruct c; cbn [xlt].
    - change (xlt (Fin 0) (xsub (Fin 1) (Fin (S / D)))) with (Rltb 0 (1 - S / D)). change (xsub (Fin 1) (Fin (S / D))) with (Fin (1 - S / D)).
      destruct (Rltb_spec 0 (1 - S / D)); [rewrite Rmax_right by lra|rewrite Rmax_left by lra]; reflexivity.
    - change (xlt (xsub (Fin 1) (Fin (S / D))) (Fin 0)) with (Rltb (1 - S / D) 0). change (xsub (Fin 1) (Fin (S / D))) with (Fin (1 - S / D)).
      destruct (Rltb_spec (1 - S / D) 0); [rewrite Rmax_left by lra|rewrite Rmax_right by lra]; reflexivity. }
  split; [reflexivity|]. split; [reflexivity|]. split; [split; [apply Rmax_l|apply Rmax_lub; lra]|].
  assert (Z : S / D = 0 <-> y = f). { rewrite <- (ssq_0 y f HL). fold S. split; intros H; [|rewrite H; unfold Rdiv; ring]. apply (f_equal (fun v => v * D)) in H. unfold Rdiv in H. rewrite Rmult_assoc, Rinv_l in H by lra. lra. }
  split.
  - rewrite <- Z. split; intros H; [destruct (Rle_lt_dec 0 (1 - S / D)); [rewrite Rmax_right in H by lra|rewrite Rmax_left in H by lra]; lra|rewrite H, Rmax_right by lra; ring].
  - rewrite <- (ssq_0 y f HL). fold S. split; intros H.
    + apply sqrt_eq_0 in H; [|apply Rdiv_le_0_compat; auto]. apply (f_equal (fun v => v * INR (len y))) in H. unfold Rdiv in H. rewrite Rmult_assoc, Rinv_l in H by lra. lra.
    + rewrite H. unfold Rdiv. rewrite Rmult_0_l. apply sqrt_0.
Qed.
(** constant data: with the constant term the coefficient is 0 whatever the model, exact or not (0/0 is NaN, and max(0,nan)=0) *)
Theorem C110_constant_data : forall a n f, (0 < n)%nat -> len f = n ->
  exists rmse, rsquare (N := XN) (map Fin (repeat a n)) (map Fin f) true = Ok (Fin 0 : XN, Fin rmse : XN) /\ rmse = sqrt (ssq (repeat a n) f / INR n).
Proof.
  intros a n f Hn HL. assert (HN : repeat a n <> []) by (destruct n; [lia|discriminate]).
  rewrite rsquare_fin by (rewrite ?repeat_length; auto). rewrite repeat_length.
  assert (M : mean (repeat a n) = a).
  { unfold mean. rewrite repeat_length. replace (lsum (repeat a n)) with (INR n * a); [field; apply not_0_INR; lia|].
    clear. induction n as [|n IH]; [cbn; ring|]. rewrite S_INR. cbn [repeat]. change (lsum (?a :: ?l)) with (a + lsum l). rewrite <- IH. ring. }
  assert (D : dev a (repeat a n) = 0) by (apply dev_0; intros b Hb; apply repeat_spec in Hb; auto).
  rewrite M, D. eexists. split; [|reflexivity]. f_equal. f_equal. cbv zeta. pose proof (ssq_pos (repeat a n) f) as P. set (S := ssq _ f) in *.
  unfold xdiv. destruct (Reqb_spec 0 0) as [_|N]; [|lra].
  unfold xinf_mul. replace (Rltb S 0) with false by (symmetry; apply Rltb_false; lra). destruct (Rltb_spec 0 S) as [Z|Z]; reflexivity.
Qed.
(** pairs with a NaN are ignored, in every arithmetic *)
Theorem C110_nan_ignored : forall (N : Num) (y1 f1 : list N) a b y2 f2 c, len y1 = len f1 -> len y2 = len f2 -> isnan a = true \/ isnan b = true ->
  rsquare (y1 ++ a :: y2) (f1 ++ b :: f2) c = rsquare (y1 ++ y2) (f1 ++ f2) c.
Proof.
  intros N y1 f1 a b y2 f2 c H1 H2 HN. unfold rsquare. rewrite !app_length. cbn [List.length].
  replace (Nat.eqb (len y1 + S (len y2)) (len f1 + S (len f2))) with true by (symmetry; apply Nat.eqb_eq; lia).
  replace (Nat.eqb (len y1 + len y2) (len f1 + len f2)) with true by (symmetry; apply Nat.eqb_eq; lia). cbn [negb].
  assert (MA : forall (y1 f1 : list N), len y1 = len f1 -> forall y2 f2, map2 pair (y1 ++ y2) (f1 ++ f2) = map2 pair y1 f1 ++ map2 pair y2 f2).
  { clear. induction y1 as [|a y1 IH]; intros [|b f1] H y2 f2; try discriminate; [reflexivity|]. cbn [app map2]. f_equal. apply IH. exact (eq_add_S _ _ H). }
  rewrite !MA by auto. cbn [map2]. rewrite !filter_app. cbn [filter fst snd].
  replace (isnan a || isnan b)%bool with true by (symmetry; apply orb_true_iff; auto). reflexivity.
Qed.
Theorem C110_size_mismatch : forall (N : Num) (y f : list N) c, len y <> len f -> rsquare y f c = Err (EException "Y and F must be the same size").
Proof. intros N y f c H. unfold rsquare. apply Nat.eqb_neq in H. rewrite H. reflexivity. Qed.
Example C110_case : dev (base true [1; 2; 4]) [1; 2; 4] <> 0 /\ dev (base false [1; 2; 4]) [1; 2; 4] <> 0.
Proof. unfold dev, base, mean. cbn. split; lra. Qed.

(** ** C111: relative errors of the induction *)
Lemma broken_unique xp : forall fp x v v', len xp = len fp -> incr xp -> xp <> [] -> broken_line xp fp x v -> broken_line xp fp x v' -> v = v'.
Proof.
  induction xp as [|a xp IH]; intros fp x v v' HL HI HN H H'; [contradiction|]. destruct fp as [|f fp]; [discriminate|].
  destruct H as (A & B & C), H' as (A' & B' & C'). destruct (Rle_lt_dec x a) as [X|X]; [rewrite (A a f), (A' a f); auto|].
  destruct xp as [|b xp]; [rewrite (C 0%nat a f), (C' 0%nat a f); auto; lra|]. destruct fp as [|g fp]; [discriminate|].
  destruct (Rle_lt_dec x b) as [Y|Y]; [rewrite (B 0%nat a b f g), (B' 0%nat a b f g); auto; lra|].
  apply (IH (g :: fp) x); [cbn in *; lia|exact (incr_tl _ _ HI)|discriminate| |]; (split; [|split]).
  - intros q h E1 E2 L. cbn in E1. injection E1 as <-. lra.
  - intros k. apply (B (S k)).
  - intros k q h K. apply (C (S k)). cbn in *; lia.
  - intros q h E1 E2 L. cbn in E1. injection E1 as <-. lra.
  - intros k. apply (B' (S k)).
  - intros k q h K. apply (C' (S k)). cbn in *; lia.
Qed.
Lemma broken_scale k xp fp x v : broken_line xp fp x v -> broken_line xp (map (Rmult k) fp) x (k * v).
Proof.
  intros (A & B & C). split; [|split].
  - intros a f E1 E2 L. rewrite nth_error_map in E2. destruct (nth_error fp 0) as [f0|]; [|discriminate]. cbn in E2. injection E2 as <-. f_equal. apply (A a); auto.
  - intros j a b f g E1 E2 E3 E4 L. rewrite nth_error_map in E3, E4. destruct (nth_error fp j) as [f0|] eqn:F0; [|discriminate]. destruct (nth_error fp (S j)) as [g0|] eqn:G0; [|discriminate].
    cbn in E3, E4. injection E3 as <-. injection E4 as <-. rewrite (B j a b f0 g0); auto. ring.
  - intros j a f K E1 E2 L. rewrite nth_error_map in E2. destruct (nth_error fp j) as [f0|] eqn:F0; [|discriminate]. cbn in E2. injection E2 as <-. f_equal. apply (C j a); auto.
Qed.
Lemma Forall2_unique {A B} (P : A -> B -> Prop) l m m' : (forall a b b', P a b -> P a b' -> b = b') -> Forall2 P l m -> Forall2 P l m' -> m = m'.
Proof. intros H F. revert m'. induction F as [|a b l m Hab F IH]; intros m' F'; inversion F'; subst; [reflexivity|]. f_equal; eauto. Qed.
Lemma broken_all xp fp xs v v' : len xp = len fp -> incr xp -> xp <> [] -> Forall2 (broken_line xp fp) xs v -> Forall2 (broken_line xp fp) xs v' -> v = v'.
Proof. intros HL HI HN. apply Forall2_unique. intros x a b. apply (broken_unique xp fp x a b HL HI HN). Qed.
Lemma Forall2_map_r {A B} (P Q : A -> B -> Prop) (g : B -> B) l m : (forall a b, P a b -> Q a (g b)) -> Forall2 P l m -> Forall2 Q l (map g m).
Proof. intros H F. induction F; cbn [map]; constructor; auto. Qed.
(** mean relative error in percent *)
Definition rel_percent (u1 u2 : list R) : R := mean (map2 (fun a b => Rabs (a - b) / a) u1 u2) * 100.
Lemma mean_rel_fin u1 u2 : len u1 = len u2 -> u1 <> [] -> (forall a, In a u1 -> a <> 0) ->
  mean_rel (N := XN) (map Fin u1) (map Fin u2) = Fin (rel_percent u1 u2).
Proof.
  intros HL HN H0. unfold mean_rel.
  assert (E : map2 (fun a b : XN => ndiv XN (nabs XN (nsub XN a b)) a) (map Fin u1) (map Fin u2) = map Fin (map2 (fun a b => Rabs (a - b) / a) u1 u2)).
  { apply map2_fin. intros i a b A B. apply (xdiv_fin (Rabs (a - b)) a). apply H0. eapply nth_error_In; eauto. }
  match goal with |- context [map2 ?g ?l ?m] => change (map2 g l m) with (map2 (fun a b : XN => ndiv XN (nabs XN (nsub XN a b)) a) (map Fin u1) (map Fin u2)) end.
  rewrite E, np_mean_fin; [reflexivity|]. destruct u1; [contradiction|]; destruct u2; discriminate.
Qed.
Lemma rel_percent_pos u1 : forall u2, len u1 = len u2 -> (forall a, In a u1 -> 0 < a) -> u1 <> [] -> 0 <= rel_percent u1 u2 /\ (rel_percent u1 u2 = 0 <-> u1 = u2).
Proof.
  intros u2 HL HP HN. unfold rel_percent, mean. rewrite map2_length, <- HL, Nat.min_id.
  assert (N0 : 0 < INR (len u1)) by (apply lt_0_INR; destruct u1; [contradiction|cbn; lia]). clear HN.
  assert (K : 0 <= lsum (map2 (fun a b => Rabs (a - b) / a) u1 u2) /\ (lsum (map2 (fun a b => Rabs (a - b) / a) u1 u2) = 0 <-> u1 = u2)).
  { clear N0. revert u2 HL. induction u1 as [|a u1 IH]; intros [|b u2] HL; try discriminate; [split; [cbn; lra|split; auto]|].
    cbn [map2]. change (lsum (?a :: ?l)) with (a + lsum l). destruct (IH) with (u2 := u2) as (P & Q); [intros; apply HP; right; auto|cbn in HL; lia|].
    assert (Pa : 0 < a) by (apply HP; left; auto). assert (R0 : 0 <= Rabs (a - b) / a) by (apply Rdiv_le_0_compat; auto using Rabs_pos).
    split; [lra|]. split; intros H.
    - assert (Z : Rabs (a - b) / a = 0) by lra. assert (lsum (map2 (fun a b => Rabs (a - b) / a) u1 u2) = 0) by lra. apply Q in H0. subst u2. f_equal.
      apply (f_equal (fun v => v * a)) in Z. unfold Rdiv in Z. rewrite Rmult_assoc, Rinv_l in Z by lra. destruct (Req_dec (a - b) 0) as [E|E]; [lra|]. apply Rabs_no_R0 in E. lra.
    - injection H as -> <-. rewrite (proj2 Q) by reflexivity. rewrite Rminus_eq_0, Rabs_R0. unfold Rdiv. ring. }
  destruct K as (P & Q). assert (R0 : 0 <= lsum (map2 (fun a b => Rabs (a - b) / a) u1 u2) / INR (len u1)) by (apply Rdiv_le_0_compat; auto). split; [lra|]. rewrite <- Q. split; intros H.
  - set (w := lsum _) in *. assert (Z : w / INR (len u1) = 0) by lra. apply (f_equal (fun v => v * INR (len u1))) in Z. unfold Rdiv in Z. rewrite Rmult_assoc, Rinv_l in Z by lra. lra.
  - rewrite H. unfold Rdiv. ring.
Qed.
(** the probes: 100 equidistant points from x1 to x2 *)
Definition probes (x1 x2 : R) : list R := map (fun i => x1 + INR i * ((x2 - x1) / 99)) (seq 0 100).
Lemma probes_X x1 x2 : linspace (N := XN) (Fin x1) (Fin x2) 100 = map Fin (probes x1 x2).
Proof. rewrite linspace_X, linspace_seq by lia. unfold probes. replace (INR (100 - 1)) with 99; [reflexivity|]. cbn [Nat.sub]. rewrite INR_IZR_INZ. reflexivity. Qed.
Lemma probes_ne x1 x2 : probes x1 x2 <> []. Proof. unfold probes. discriminate. Qed.
Theorem C111_relative_error : forall X U1 U2 x1 x2 p1 p2 e, len X = len U1 -> len X = len U2 -> incr X -> X <> [] ->
  Forall2 (broken_line X U1) (probes x1 x2) p1 -> Forall2 (broken_line X U2) (probes x1 x2) p2 ->   (* the two curves at the probes *)
  nth_error U1 (len U1 - 1) = Some e -> 0 < e -> (forall a, In a p1 -> 0 < a) ->
  relerrinduction (N := XN) (map Fin X) (map Fin U1) (map Fin U2) (Fin x1) (Fin x2) = Ok (Fin (rel_percent p1 p2) : XN) /\
  0 <= rel_percent p1 p2 /\ (rel_percent p1 p2 = 0 <-> p1 = p2).
Proof.
  intros X U1 U2 x1 x2 p1 p2 e L1 L2 HI HX F1 F2 He e0 HP.
  assert (LP1 : len p1 = 100%nat) by (rewrite <- (Forall2_len _ _ _ F1); unfold probes; rewrite map_length, seq_length; reflexivity).
  assert (LP2 : len p2 = 100%nat) by (rewrite <- (Forall2_len _ _ _ F2); unfold probes; rewrite map_length, seq_length; reflexivity).
  assert (N1 : p1 <> []) by (intros ->; discriminate).
  destruct (rel_percent_pos p1 p2) as (R1 & R2); [lia|auto|auto|]. split; [|split; auto].
  unfold relerrinduction. rewrite probes_X.
  destruct (np_interp_fin (probes x1 x2) X U1) as (v1 & E1 & G1); auto. destruct (np_interp_fin (probes x1 x2) X U2) as (v2 & E2 & G2); auto.
  assert (v1 = p1) as -> by (apply (broken_all X U1 (probes x1 x2)); auto).
  assert (v2 = p2) as -> by (apply (broken_all X U2 (probes x1 x2)); auto).
  nT. rewrite E1, E2. cbn [bind].
  assert (NU : U1 <> []) by (destruct U1; [discriminate|discriminate]).
  assert (EL : List.last (map Fin U1) (nnan XN) = Fin e).
  { destruct (exists_last NU) as (m & q & ->). rewrite map_app. cbn [map]. rewrite last_last. f_equal.
    rewrite app_length in He. cbn [List.length] in He. rewrite nth_error_app2 in He by lia. replace (len m + 1 - 1 - len m)%nat with 0%nat in He by lia. cbn in He. injection He as ->. reflexivity. }
  destruct (map Fin U1) as [|u0 U1'] eqn:EU; [destruct U1; [contradiction|discriminate]|]. nT. rewrite EL. f_equal.
  assert (ED : forall p, map (fun u : XN => ndiv XN u (Fin e)) (map Fin p) = map Fin (map (fun u => u / e) p)) by (intros p; apply map_fin; intros u _; apply (xdiv_fin u e); lra).
  match goal with |- mean_rel (map ?g (map Fin p1)) _ = _ => change g with (fun u : XN => ndiv XN u (Fin e)) end. rewrite !ED.
  rewrite mean_rel_fin; [|rewrite !map_length; lia|destruct p1; [contradiction|discriminate]|].
  2:{ intros a Ha. apply in_map_iff in Ha. destruct Ha as (u & <- & Hu). apply HP in Hu. apply Rgt_not_eq. apply Rdiv_lt_0_compat; auto. }
  f_equal. unfold rel_percent. f_equal. f_equal.
  clear - e0 HP. revert p2. induction p1 as [|a p1 IH]; intros [|b p2]; try reflexivity. cbn [map map2]. f_equal; [|apply IH; intros; apply HP; right; auto].
  assert (0 < a) by (apply HP; left; auto). replace (a / e - b / e) with ((a - b) / e) by (field; lra). unfold Rdiv at 2. rewrite Rabs_mult, (Rabs_right (/ e)) by (left; apply Rinv_0_lt_compat; auto). field. lra.
Qed.
(** the two curves may be scaled by any positive factor (another wind speed) *)
Theorem C111_scale_invariant : forall X U1 U2 x1 x2 p1 p2 e k, len X = len U1 -> len X = len U2 -> incr X -> X <> [] -> 0 < k ->
  Forall2 (broken_line X U1) (probes x1 x2) p1 -> Forall2 (broken_line X U2) (probes x1 x2) p2 ->
  nth_error U1 (len U1 - 1) = Some e -> 0 < e -> (forall a, In a p1 -> 0 < a) ->
  relerrinduction (N := XN) (map Fin X) (map Fin (map (Rmult k) U1)) (map Fin (map (Rmult k) U2)) (Fin x1) (Fin x2) =
  relerrinduction (N := XN) (map Fin X) (map Fin U1) (map Fin U2) (Fin x1) (Fin x2).
Proof.
  intros X U1 U2 x1 x2 p1 p2 e k L1 L2 HI HX Hk F1 F2 He e0 HP.
  destruct (C111_relative_error X U1 U2 x1 x2 p1 p2 e) as (E & _); auto. rewrite E.
  assert (SC : forall U p, Forall2 (broken_line X U) (probes x1 x2) p -> Forall2 (broken_line X (map (Rmult k) U)) (probes x1 x2) (map (Rmult k) p)).
  { intros U p F. apply (Forall2_map_r _ _ _ _ _ (fun x v => broken_scale k X U x v) F). }
  destruct (C111_relative_error X (map (Rmult k) U1) (map (Rmult k) U2) x1 x2 (map (Rmult k) p1) (map (Rmult k) p2) (k * e)) as (E' & _); auto; try (rewrite map_length; auto).
  - rewrite nth_error_map, He. reflexivity.
  - apply Rmult_lt_0_compat; auto.
  - intros a Ha. apply in_map_iff in Ha. destruct Ha as (u & <- & Hu). apply Rmult_lt_0_compat; auto.
  - rewrite E'. do 2 f_equal. unfold rel_percent. f_equal. f_equal.
    clear - Hk HP. revert p2. induction p1 as [|a p1 IH]; intros [|b p2]; try reflexivity. cbn [map map2]. f_equal; [|apply IH; intros; apply HP; right; auto].
    assert (0 < a) by (apply HP; left; auto). replace (k * a - k * b) with (k * (a - b)) by ring. rewrite Rabs_mult, (Rabs_right k) by lra. field. lra.
Qed.
Lemma at_one_station : forall x X U1 U2 a b, len X = len U1 -> len X = len U2 -> incr X -> X <> [] ->
  broken_line X U1 x a -> broken_line X U2 x b -> a <> 0 ->
  relerrinduction_at (N := XN) (Fin x) (map Fin X) (map Fin U1) (map Fin U2) = Ok (Fin (100 * (Rabs (a - b) / a)) : XN).
Proof.
  intros x X U1 U2 a b L1 L2 HI HX Ha Hb H0. unfold relerrinduction_at.
  destruct (np_interp_fin [x] X U1) as (v1 & E1 & G1); auto. destruct (np_interp_fin [x] X U2) as (v2 & E2 & G2); auto.
  assert (v1 = [a]) as -> by (apply (broken_all X U1 [x]); auto).
  assert (v2 = [b]) as -> by (apply (broken_all X U2 [x]); auto).
  cbn [map] in E1, E2. nT. rewrite E1, E2. cbn [bind]. etransitivity; [apply (f_equal Ok); exact (mean_rel_fin [a] [b] eq_refl ltac:(discriminate) ltac:(intros q [<-|[]]; auto))|].
  do 2 f_equal. unfold rel_percent, mean. cbn. field. auto.
Qed.
(** at a single station: x=0 for relerrinduction_mid, x=-2.5 for relerrinduction_25 *)
Theorem C111_at_one_station : forall X U1 U2 a b, len X = len U1 -> len X = len U2 -> incr X -> X <> [] -> a <> 0 ->
  (broken_line X U1 0 a -> broken_line X U2 0 b ->
   relerrinduction_mid (N := XN) (map Fin X) (map Fin U1) (map Fin U2) = Ok (Fin (100 * (Rabs (a - b) / a)) : XN)) /\
  (broken_line X U1 (-5/2) a -> broken_line X U2 (-5/2) b ->
   relerrinduction_25 (N := XN) (map Fin X) (map Fin U1) (map Fin U2) = Ok (Fin (100 * (Rabs (a - b) / a)) : XN)).
Proof.
  intros X U1 U2 a b L1 L2 HI HX H0. split; intros A B.
  - exact (at_one_station 0 X U1 U2 a b L1 L2 HI HX A B H0).
  - rewrite <- (at_one_station (-5/2) X U1 U2 a b L1 L2 HI HX A B H0). unfold relerrinduction_25. f_equal.
    change (Fin (IZR (-25) / IZR 10) = Fin (-5 / 2)). f_equal. lra.
Qed.
(** nonvacuity: for all positive curves the hypotheses can be met *)
Lemma broken_positive X U x v : len X = len U -> incr X -> X <> [] -> (forall u, In u U -> 0 < u) -> broken_line X U x v -> 0 < v.
Proof.
  revert U. induction X as [|a X IH]; intros U HL HI HX HU H; [contradiction|]. destruct U as [|f U]; [discriminate|]. pose proof H as (A & B & C).
  destruct (Rle_lt_dec x a) as [Xa|Xa]; [rewrite (A a f); auto; apply HU; left; auto|].
  destruct X as [|b X]; [rewrite (C 0%nat a f); auto; [apply HU; left; auto|lra]|]. destruct U as [|g U]; [discriminate|].
  destruct (Rle_lt_dec x b) as [Y|Y].
  - rewrite (B 0%nat a b f g); auto; [|lra]. assert (0 < f) by (apply HU; left; auto). assert (0 < g) by (apply HU; right; left; auto).
    assert (T : 0 <= (x - a) / (b - a) <= 1) by (split; [apply Rdiv_le_0_compat; lra|apply (Rmult_le_reg_r (b - a)); [lra|]; unfold Rdiv; rewrite Rmult_assoc, Rinv_l by lra; lra]).
    set (t := (x - a) / (b - a)) in *. replace (f + (g - f) * t) with (f * (1 - t) + g * t) by ring.
    destruct (Rle_lt_dec t (1/2)); [assert (0 < f * (1 - t)) by (apply Rmult_lt_0_compat; lra); assert (0 <= g * t) by (apply Rmult_le_pos; lra); lra|assert (0 <= f * (1 - t)) by (apply Rmult_le_pos; lra); assert (0 < g * t) by (apply Rmult_lt_0_compat; lra); lra].
  - apply (IH (g :: U)); [cbn in *; lia|exact (incr_tl _ _ HI)|discriminate|intros; apply HU; right; auto|].
    split; [|split]; [intros q h E1 E2 L; cbn in E1; injection E1 as <-; lra|intros k; apply (B (S k))|intros k q h K; apply (C (S k)); cbn in *; lia].
Qed.
Theorem C111_applies : forall X U1 U2 x1 x2, len X = len U1 -> len X = len U2 -> incr X -> X <> [] -> (forall u, In u U1 -> 0 < u) ->
  exists p1 p2 e, Forall2 (broken_line X U1) (probes x1 x2) p1 /\ Forall2 (broken_line X U2) (probes x1 x2) p2 /\
    nth_error U1 (len U1 - 1) = Some e /\ 0 < e /\ (forall a, In a p1 -> 0 < a).
Proof.
  intros X U1 U2 x1 x2 L1 L2 HI HX HU. destruct (np_interp_fin (probes x1 x2) X U1) as (p1 & _ & F1); auto. destruct (np_interp_fin (probes x1 x2) X U2) as (p2 & _ & F2); auto.
  destruct (nth_error U1 (len U1 - 1)) as [e|] eqn:E; [|apply nth_error_None in E; destruct U1; [destruct X; [contradiction|discriminate]|cbn in E; lia]].
  exists p1, p2, e. split; auto. split; auto. split; auto. split; [apply HU; eapply nth_error_In; eauto|].
  intros a Ha. apply In_nth_error in Ha. destruct Ha as (i & Hi). clear F2. revert F1. generalize (probes x1 x2) as l. revert i Hi. induction p1 as [|b p1 IH]; intros [|i] Hi l F1; try discriminate; inversion F1 as [|x v l' m' Hv F']; subst; [injection Hi as <-; exact (broken_positive X U1 x b L1 HI HX HU Hv)|exact (IH i Hi l' F')].
Qed.

(** ** C112: wind coordinates *)
Theorem C112_wind_coordinates : forall b th (p : R3), exists q,
  Tw2c (N := XN) b (Fin th) (lift3 p) = lift3 q /\ q = (if b then rotate (0, 1, 0) th p else p) /\ length3 q = length3 p /\
  Tc2w (N := XN) b (Fin th) (lift3 q) = lift3 p /\
  exists q', Tc2w (N := XN) b (Fin th) (lift3 p) = lift3 q' /\ Tw2c (N := XN) b (Fin th) (lift3 q') = lift3 p.
Proof.
  intros b th [[x y] z]. pose proof (sin2_cos2 th) as S. unfold Rsqr in S.
  assert (RY : rotate (0, 1, 0) th (x, y, z) = (x * cos th + z * sin th, y, - x * sin th + z * cos th)).
  { unfold rotate, add3, scal3, vprod, inner, px, py, pz; cbn [fst snd]. f_equal; [f_equal|]; ring. }
  destruct b.
  - exists (x * cos th + z * sin th, y, - x * sin th + z * cos th). split; [reflexivity|]. split; [auto|]. split; [|split].
    + unfold length3, inner, px, py, pz; cbn [fst snd]. f_equal. transitivity ((x * x + z * z) * (sin th * sin th + cos th * cos th) + y * y); [ring|rewrite S; ring].
    + unfold Tc2w, lift3, px, py, pz; cbn [fst snd]. xn. f_equal; [f_equal; f_equal|f_equal]; [transitivity (x * (sin th * sin th + cos th * cos th)); [ring|rewrite S; ring]|transitivity (z * (sin th * sin th + cos th * cos th)); [ring|rewrite S; ring]].
    + exists (x * cos th - z * sin th, y, x * sin th + z * cos th). split; [reflexivity|].
      unfold Tw2c, lift3, px, py, pz; cbn [fst snd]. xn. f_equal; [f_equal; f_equal|f_equal]; [transitivity (x * (sin th * sin th + cos th * cos th)); [ring|rewrite S; ring]|transitivity (z * (sin th * sin th + cos th * cos th)); [ring|rewrite S; ring]].
  - exists (x, y, z). repeat split. exists (x, y, z). split; reflexivity.
Qed.

(** ** C113: contour levels and colour maps *)
Definition lines_of (special : bool) : list R :=
  if special then [5/10; 6/10; 7/10; 8/10; 9/10; 95/100; 98/100; 99/100; 1; 101/100]
  else [7/10; 8/10; 85/100; 9/10; 95/100; 98/100; 99/100; 995/1000; 101/100].
Lemma insert_fin x l : insert (N := XN) (Fin x) (map Fin l) = map Fin (insert (N := RN) x l).
Proof. induction l as [|y l IH]; [reflexivity|]. cbn [map insert]. change (nle XN (Fin x) (Fin y)) with (nle RN x y). destruct (nle RN x y); [reflexivity|]. cbn [map]. f_equal. exact IH. Qed.
Lemma np_sort_fin l : np_sort (N := XN) (map Fin l) = map Fin (np_sort (N := RN) l).
Proof. induction l as [|y l IH]; [reflexivity|]. unfold np_sort in *. cbn [map fold_right]. rewrite IH. apply insert_fin. Qed.
(** the sorted list is a permutation of its argument *)
Lemma insert_perm x (l : list R) : Permutation.Permutation (x :: l) (insert (N := RN) x l).
Proof. induction l as [|y l IH]; [auto|]. cbn [insert]. destruct (nle RN x y); [auto|]. eapply Permutation.perm_trans; [apply Permutation.perm_swap|]. apply Permutation.perm_skip. exact IH. Qed.
Lemma sort_perm (l : list R) : Permutation.Permutation l (np_sort (N := RN) l).
Proof. induction l as [|y l IH]; [auto|]. unfold np_sort in *. cbn [fold_right]. eapply Permutation.perm_trans; [|apply insert_perm]. auto. Qed.
Definition ordered (l : list R) : Prop := forall i j a b, nth_error l i = Some a -> nth_error l j = Some b -> (i <= j)%nat -> a <= b.
Lemma ordered_cons x l : ordered l -> (forall y, In y l -> x <= y) -> ordered (x :: l).
Proof.
  intros H HX [|i] [|j] a b A B L; cbn in A, B; [injection A as <-; injection B as <-; lra|injection A as <-; apply HX; eapply nth_error_In; eauto|lia|apply (H i j); auto; lia].
Qed.
Lemma ordered_tl x l : ordered (x :: l) -> ordered l.
Proof. intros H i j a b A B L. apply (H (S i) (S j)); auto. lia. Qed.
Lemma insert_ordered x l : ordered l -> ordered (insert (N := RN) x l).
Proof.
  induction l as [|y l IH]; intros H; [apply ordered_cons; [intros [|i]; discriminate|contradiction]|]. cbn [insert]. change (nle RN x y) with (Rleb x y).
  assert (HY : forall z, In z l -> y <= z) by (intros z Hz; apply In_nth_error in Hz; destruct Hz as (i & Hi); apply (H 0%nat (S i)); auto; lia).
  destruct (Rleb_spec x y) as [C|C].
  - apply ordered_cons; auto. intros z [<-|Hz]; auto. specialize (HY z Hz). lra.
  - apply ordered_cons; [apply IH; exact (ordered_tl _ _ H)|]. intros z Hz. apply (Permutation.Permutation_in z (Permutation.Permutation_sym (insert_perm x l))) in Hz. destruct Hz as [<-|Hz]; auto. lra.
Qed.
Lemma sort_ordered l : ordered (np_sort (N := RN) l).
Proof. induction l as [|y l IH]; [intros [|i]; discriminate|]. unfold np_sort in *. cbn [fold_right]. apply insert_ordered; auto. Qed.
Theorem C113_contours : forall CT, exists contour lines, get_contours (N := XN) (Fin CT) = (map Fin contour : list XN, map Fin lines : list XN) /\
  ordered contour /\ ordered lines /\
  (forall v, In v lines <-> In v (lines_of (Reqb CT (95 / 100)))) /\ (forall v, In v contour <-> v = 2 / 10 \/ v = 14 / 10 \/ In v lines).
Proof.
  intros CT. set (base := lines_of (Reqb CT (95/100))). exists (np_sort (N := RN) (np_sort (N := RN) base ++ [14/10; 2/10])), (np_sort (N := RN) base).
  split; [|split; [|split; [|split]]]; try apply sort_ordered.
  - unfold get_contours. change (neqb XN (Fin CT) (nQ XN 95 100)) with (Reqb CT (95/100)).
    assert (E : (if Reqb CT (95/100) then np_sort (N := XN) [nQ XN 5 10; nQ XN 6 10; nQ XN 7 10; nQ XN 8 10; nQ XN 9 10; nQ XN 95 100; nQ XN 98 100; nQ XN 99 100; nZ XN 1; nQ XN 101 100]
      else np_sort (N := XN) [nQ XN 7 10; nQ XN 8 10; nQ XN 85 100; nQ XN 9 10; nQ XN 95 100; nQ XN 98 100; nQ XN 99 100; nQ XN 995 1000; nQ XN 101 100]) = map Fin (np_sort (N := RN) base)).
    { unfold base. rewrite <- np_sort_fin. destruct (Reqb CT (95/100)); reflexivity. }
    rewrite E. f_equal. etransitivity; [|exact (np_sort_fin (np_sort (N := RN) base ++ [14/10; 2/10]))]. f_equal. symmetry. exact (map_app Fin (np_sort (N := RN) base) [14/10; 2/10]).
  - intros v. split; apply Permutation.Permutation_in; [apply Permutation.Permutation_sym|]; apply sort_perm.
  - intros v. split; intros H.
    + apply (Permutation.Permutation_in v (Permutation.Permutation_sym (sort_perm _))) in H. apply in_app_or in H. destruct H as [H|[H|[H|[]]]]; auto.
    + apply (Permutation.Permutation_in v (sort_perm _)). apply in_or_app. destruct H as [->|[->|H]]; [right; right; left; auto|right; left; auto|left; auto].
Qed.
(** the colour dictionary: a continuous ramp through the colours, open at the two ends *)
Theorem C113_colormap : forall (N : Num) (cs vs : list N) i v c, len cs = len vs -> (2 <= len cs)%nat ->
  nth_error vs i = Some v -> nth_error cs i = Some c ->
  exists d, make_cdict cs (Some vs) = Ok d /\ len d = len vs /\
    nth_error d i = Some (v, if Nat.eqb i 0 then None else Some c, if Nat.eqb (S i) (len cs) then None else Some c).
Proof.
  intros N cs vs i v c HL H2 Hv Hc.
  (* the doubled list *)
  assert (D0 : forall k x, nth_error cs k = Some x -> nth_error (doubled cs) (2 * k) = Some (if Nat.eqb k 0 then None else Some x) /\
                nth_error (doubled cs) (2 * k + 1) = Some (if Nat.eqb (S k) (len cs) then None else Some x)).
  { intros k x Hk. assert (K : (k < len cs)%nat) by (apply nth_error_Some; congruence). unfold doubled. set (d := List.concat (map (fun s => [Some s; Some s]) cs)).
    assert (LD : len d = (len cs * 2)%nat) by (unfold d; rewrite (concat_len 2), map_length; auto; apply Forall_forall; intros r Hr; apply in_map_iff in Hr; destruct Hr as (? & <- & _); reflexivity).
    assert (ND : forall e, (e < 2)%nat -> nth_error d (2 * k + e) = Some (Some x)).
    { intros e He. unfold d. rewrite (Nat.mul_comm 2 k), (nth_error_concat 2); auto; [|apply Forall_forall; intros r Hr; apply in_map_iff in Hr; destruct Hr as (? & <- & _); reflexivity].
      rewrite nth_error_map, Hk. cbn [option_map]. destruct e as [|[|e]]; [reflexivity|reflexivity|lia]. }
    destruct d as [|d0 d'] eqn:Ed; [cbn in LD; lia|]. cbn [List.length] in LD.
    assert (T : forall m, nth_error (None :: firstn (len d' - 1) d' ++ [None]) m = if Nat.eqb m 0 then Some None else if Nat.eqb m (len d') then Some None else nth_error (d0 :: d') m).
    { intros [|m]; [reflexivity|]. cbn [nth_error]. change (Nat.eqb (S m) 0) with false. cbv iota. assert (LF : len (firstn (len d' - 1) d') = (len d' - 1)%nat) by (rewrite firstn_length; lia).
      destruct (Nat.eqb_spec (S m) (len d')) as [E|E].
      - rewrite nth_error_app2 by lia. replace (m - len (firstn (len d' - 1) d'))%nat with 0%nat by lia. reflexivity.
      - destruct (Nat.lt_ge_cases m (len d' - 1)) as [L|L].
        + rewrite nth_error_app1 by lia. transitivity (nth_error (firstn (len d' - 1) d' ++ skipn (len d' - 1) d') m); [rewrite nth_error_app1 by lia; reflexivity|rewrite firstn_skipn; reflexivity].
        + rewrite (proj2 (nth_error_None _ _)) by (rewrite app_length; cbn; lia). symmetry. apply nth_error_None. lia. }
    rewrite !T. pose proof (ND 0%nat ltac:(lia)) as N0. pose proof (ND 1%nat ltac:(lia)) as N1. rewrite Nat.add_0_r in N0. rewrite N0, N1. split.
    - destruct (Nat.eqb_spec (2 * k) 0), (Nat.eqb_spec (2 * k) (len d')), (Nat.eqb_spec k 0); try lia; reflexivity.
    - replace (Nat.eqb (2 * k + 1) 0) with false by (symmetry; apply Nat.eqb_neq; lia). destruct (Nat.eqb_spec (S k) (len cs)), (Nat.eqb_spec (2 * k + 1) (len d')); try lia; reflexivity. }
  unfold make_cdict. destruct cs as [|c0 cs']; [cbn in H2; lia|]. set (cs := c0 :: cs') in *.
  set (f := fun iv : nat * N => match nth_error (doubled cs) (2 * fst iv), nth_error (doubled cs) (2 * fst iv + 1) with Some a, Some b => Ok (snd iv, a, b) | _, _ => Err EIndexError end).
  set (g := fun iv : nat * N => (snd iv, if Nat.eqb (fst iv) 0 then None else nth_error cs (fst iv), if Nat.eqb (S (fst iv)) (len cs) then None else nth_error cs (fst iv))).
  assert (M : mapM f (combine (seq 0 (len vs)) vs) = Ok (map g (combine (seq 0 (len vs)) vs))).
  { assert (F : forall p, In p (combine (seq 0 (len vs)) vs) -> f p = Ok (g p)).
    { intros [k w] Hp. apply in_combine_l in Hp as Hs. apply in_seq in Hs. unfold f, g; cbn [fst snd]. destruct (nth_error cs k) as [x|] eqn:Ex; [|apply nth_error_None in Ex; lia].
      destruct (D0 k x Ex) as (A & B). rewrite A, B. reflexivity. }
    induction (combine (seq 0 (len vs)) vs) as [|p l IH]; [reflexivity|]. cbn [mapM map]. rewrite (F p) by (left; auto). cbn [bind]. rewrite IH by (intros; apply F; right; auto). reflexivity. }
  exists (map g (combine (seq 0 (len vs)) vs)). split; [exact M|]. split; [rewrite map_length, combine_length, seq_length, Nat.min_id; reflexivity|].
  rewrite nth_error_map. assert (C : nth_error (combine (seq 0 (len vs)) vs) i = Some (i, v)).
  { assert (K : (i < len vs)%nat) by (apply nth_error_Some; congruence). rewrite (nth_error_nth' _ (0%nat, v)) by (rewrite combine_length, seq_length; lia).
    f_equal. rewrite combine_nth by (rewrite seq_length; reflexivity). rewrite seq_nth by auto. f_equal. apply nth_error_nth; auto. }
  rewrite C. cbn [option_map]. unfold g; cbn [fst snd]. rewrite Hc. reflexivity.
Qed.
(** positions handed to the colour map *)
Theorem C113_positions : forall lo hi, exists vs, cmap_values (N := XN) (Fin lo) (Fin hi) = map Fin vs /\ len vs = 8%nat /\
  (forall v, In v vs -> 0 <= v <= 1) /\
  (incr vs <-> lo < 9 / 10 /\ 1001 / 1000 < hi) /\
  (lo < 9 / 10 -> 1001 / 1000 < hi -> nth_error vs 0 = Some 0 /\ nth_error vs 7 = Some 1).
Proof.
  intros lo hi. set (sp := [lo; 90/100; 95/100; 98/100; 1 - 1/1000; 1; 1 + 1/1000; hi]).
  assert (ES : cmap_speeds (N := XN) (Fin lo) (Fin hi) = map Fin sp) by reflexivity.
  assert (MI : exists m, pymin (N := XN) (map Fin sp) = Fin m /\ In m sp /\ forall v, In v sp -> m <= v).
  { unfold pymin, sp. cbn [map].
    assert (G : forall l a, exists m, fold_left (fun m x : XN => if nlt XN x m then x else m) (map Fin l) (Fin a : XN) = Fin m /\ (m = a \/ In m l) /\ m <= a /\ forall v, In v l -> m <= v).
    { induction l as [|x l IH]; intros a; cbn [map fold_left]; [exists a; repeat split; auto; [lra|contradiction]|]. change (nlt XN (Fin x) (Fin a)) with (Rltb x a).
      destruct (Rltb_spec x a) as [C|C]; [destruct (IH x) as (m & E & A & B & D)|destruct (IH a) as (m & E & A & B & D)]; exists m; (split; [exact E|]); (split; [destruct A as [->|A]; cbn; auto|]); (split; [lra|]); intros v [<-|V]; auto; lra. }
    destruct (G [90/100; 95/100; 98/100; 1 - 1/1000; 1; 1 + 1/1000; hi] lo) as (m & E & A & B & D). exists m. split; [exact E|]. split; [destruct A as [->|A]; [left; auto|right; auto]|]. intros v [<-|V]; auto. }
  assert (MA : exists m, pymax (N := XN) (map Fin sp) = Fin m /\ In m sp /\ forall v, In v sp -> v <= m).
  { unfold pymax, sp. cbn [map].
    assert (G : forall l a, exists m, fold_left (fun m x : XN => if nlt XN m x then x else m) (map Fin l) (Fin a : XN) = Fin m /\ (m = a \/ In m l) /\ a <= m /\ forall v, In v l -> v <= m).
    { induction l as [|x l IH]; intros a; cbn [map fold_left]; [exists a; repeat split; auto; [lra|contradiction]|]. change (nlt XN (Fin a) (Fin x)) with (Rltb a x).
      destruct (Rltb_spec a x) as [C|C]; [destruct (IH x) as (m & E & A & B & D)|destruct (IH a) as (m & E & A & B & D)]; exists m; (split; [exact E|]); (split; [destruct A as [->|A]; cbn; auto|]); (split; [lra|]); intros v [<-|V]; auto; lra. }
    destruct (G [90/100; 95/100; 98/100; 1 - 1/1000; 1; 1 + 1/1000; hi] lo) as (m & E & A & B & D). exists m. split; [exact E|]. split; [destruct A as [->|A]; [left; auto|right; auto]|]. intros v [<-|V]; auto. }
  destruct MI as (mn & En & In_n & Ln), MA as (mx & Ex & In_x & Lx).
  assert (N9 : mn <= 90/100) by (apply Ln; right; left; auto). assert (X1 : 1 + 1/1000 <= mx) by (apply Lx; unfold sp; do 6 right; left; auto).
  assert (D : 0 < mx - mn) by lra.
  exists (map (fun x => (x - mn) / (mx - mn)) sp). split; [|split; [reflexivity|split; [|split]]].
  - unfold cmap_values. rewrite ES. nT. rewrite En, Ex. rewrite !map_map. apply map_ext. intros x. xn. apply xdiv_fin. lra.
  - intros v Hv. apply in_map_iff in Hv. destruct Hv as (x & <- & Hx). pose proof (Ln x Hx). pose proof (Lx x Hx). split; [apply Rdiv_le_0_compat; lra|].
    apply (Rmult_le_reg_r (mx - mn)); [lra|]. unfold Rdiv. rewrite Rmult_assoc, Rinv_l by lra. lra.
  - assert (MON : forall a b, (a - mn) / (mx - mn) < (b - mn) / (mx - mn) <-> a < b).
    { intros a b. split; intros H; [apply (Rmult_lt_compat_r (mx - mn)) in H; [|lra]; unfold Rdiv in H; rewrite !Rmult_assoc, Rinv_l in H by lra; lra|].
      apply (Rmult_lt_reg_r (mx - mn)); [lra|]. unfold Rdiv. rewrite !Rmult_assoc, Rinv_l by lra. lra. }
    split.
    + intros H. split.
      * assert (Q : (lo - mn) / (mx - mn) < (90/100 - mn) / (mx - mn)) by (refine (H 0%nat 1%nat _ _ _ _ _); [reflexivity|reflexivity|auto with arith]). apply (proj1 (MON _ _)) in Q. lra.
      * assert (Q : (1 + 1/1000 - mn) / (mx - mn) < (hi - mn) / (mx - mn)) by (refine (H 6%nat 7%nat _ _ _ _ _); [reflexivity|reflexivity|auto with arith]). apply (proj1 (MON _ _)) in Q. lra.
    + intros (A & B). assert (IS : incr sp).
      { unfold sp. intros i j a b Hi Hj L.
        do 8 (destruct i as [|i]; [do 8 (destruct j as [|j]; [cbn in Hi, Hj; injection Hi as <-; injection Hj as <-; try lia; try lra|]); destruct j; discriminate|]). destruct i; discriminate. }
      intros i j a b Hi Hj L. rewrite nth_error_map in Hi, Hj. destruct (nth_error sp i) as [x|] eqn:E1; [|discriminate]. destruct (nth_error sp j) as [y|] eqn:E2; [|discriminate].
      cbn [option_map] in Hi, Hj. injection Hi as <-. injection Hj as <-. apply MON. apply (IS i j); auto.
  - intros A B. assert (mn = lo) as ->.
    { apply Rle_antisym; [apply Ln; left; auto|]. unfold sp in In_n. cbn in In_n. repeat destruct In_n as [<-|In_n]; try contradiction; lra. }
    assert (mx = hi) as ->.
    { apply Rle_antisym; [|apply Lx; unfold sp; do 7 right; left; auto]. unfold sp in In_x. cbn in In_x. repeat destruct In_x as [<-|In_x]; try contradiction; lra. }
    split; cbn [nth_error map sp]; f_equal; field; lra.
Qed.
