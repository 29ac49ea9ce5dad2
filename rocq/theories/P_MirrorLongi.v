(** * C151: the longitudinal vorticity of a skewed wake is not symmetric about the plane of the skew *)
From Coq Require Import Reals Lra ZArith List Bool String Lia.
From Coquelicot Require Import Coquelicot.
From Coq Require Import List.
From Verif Require Import Num NumR NumX M_Elliptic M_Line M_Doublet M_Cylinder M_Misc M_Skewed M_Solver M_Turbine M_Farm Spec L_Geom L_Calc L_Mirror L_Angles L_TurbineX P_Units P_Mirror P_MirrorSwirl.
Import ListNotations.
Local Open Scope R_scope.
Local Open Scope list_scope.
Local Notation len := List.length.

(** ** The skewed longitudinal vorticity: the nodes of the quadrature are not symmetric about the plane of the skew *)
Fixpoint TR (f : R -> R) (l : list R) : R :=
  match l with a :: ((b :: _) as l') => (b - a) * (f b + f a) / 2 + TR f l' | _ => 0 end.
Lemma TR_cons f a b l : TR f (a :: b :: l) = (b - a) * (f b + f a) / 2 + TR f (b :: l).
Proof. reflexivity. Qed.
Lemma tz_TR (f : XN -> XN) (h : R -> R) : forall l, (forall t, In t l -> f (Fin t) = Fin (h t)) -> tz (map (fun t => (f (Fin t), Fin t)) l) = Fin (TR h l).
Proof.
  induction l as [|a [|b l] IH]; intros H; [reflexivity..|]. pose proof (IH (fun t Ht => H t (or_intror Ht))) as E. cbn [map] in *. rewrite tz_cons.
  match type of E with ?a = _ => match goal with |- nadd XN _ ?b = _ => change b with a end end. rewrite E, TR_cons. unfold pan. cbn [fst snd].
  rewrite !H by (cbn; auto). cbn. destruct (Reqb_spec 2 0); [lra|]. cbn. reflexivity.
Qed.
Lemma lim_TR (f : R -> R -> R) (L : R -> R) : forall l, (forall t, In t l -> filterlim (fun r => f r t) (at_left 1) (locally (L t))) ->
  filterlim (fun r => TR (f r) l) (at_left 1) (locally (TR L l)).
Proof.
  induction l as [|a [|b l] IH]; intros H; [change (filterlim (fun _ : R => 0) (at_left 1) (locally 0)); apply filterlim_const..|].
  apply (filterlim_ext (fun r => (b - a) * (f r b + f r a) / 2 + TR (f r) (b :: l))); [intros; reflexivity|]. rewrite TR_cons.
  apply (filterlim_comp_2 (F := at_left 1) (G := locally ((b - a) * (L b + L a) / 2)) (H := locally (TR L (b :: l))) (fun r => (b - a) * (f r b + f r a) / 2) (fun r => TR (f r) (b :: l)) Rplus).
  - assert (HP : filterlim (fun r => f r b + f r a) (at_left 1) (locally (L b + L a))).
    { apply (filterlim_comp_2 (F := at_left 1) (G := locally (L b)) (H := locally (L a)) (fun r => f r b) (fun r => f r a) Rplus); [apply H; cbn; auto|apply H; cbn; auto|apply (filterlim_plus (K := R_AbsRing) (V := R_NormedModule) (L b) (L a))]. }
    apply (filterlim_comp _ _ _ (fun r => f r b + f r a) (fun y => (b - a) * y / 2) (at_left 1) (locally (L b + L a))); [exact HP|].
    apply (filterlim_ext (fun y => scal ((b - a) / 2) y)); [intros; unfold scal; cbn; unfold mult; cbn; field|].
    replace ((b - a) * (L b + L a) / 2) with (scal ((b - a) / 2) (L b + L a)) by (unfold scal; cbn; unfold mult; cbn; field). apply (filterlim_scal_r (K := R_AbsRing) (V := R_NormedModule)).
  - apply IH. intros; apply H; right; assumption.
  - apply (filterlim_plus (K := R_AbsRing) (V := R_NormedModule)).
Qed.
(** one term of the sum, for a point of the plane of the rotor: distance [r] to the axis, direction [(c, s)] *)
Definition lD1 (r t c s : R) : R := sqrt (1 + r * r - 2 * r * (cos t * c + sin t * s)).
Definition lD2 (r t c s m : R) : R := m * cos t + sqrt (1 + m * m) * lD1 r t c s - m * r * c.
Definition lterm (g r t c s m : R) : R := (sin t - r * s) * (g / (4 * PI) / (lD1 r t c s * lD2 r t c s m)).
Lemma l_pos r t c s : c * c + s * s = 1 -> 0 <= r -> (r <> 1 \/ cos t * c + sin t * s <> 1) -> 0 < 1 + r * r - 2 * r * (cos t * c + sin t * s).
Proof.
  intros H Hr HH. pose proof (sin2_cos2 t) as HT. unfold Rsqr in HT. set (x := cos t * c + sin t * s) in *.
  assert (HX : x <= 1).
  { unfold x. assert (0 <= (cos t - c) * (cos t - c)) by apply Rle_0_sqr. assert (0 <= (sin t - s) * (sin t - s)) by apply Rle_0_sqr. lra. }
  destruct (Req_dec x 1) as [E|E].
  - destruct HH as [HH|HH]; [|contradiction]. rewrite E. nra.
  - destruct (Req_dec r 0) as [->|E2]; [lra|]. assert (0 < r * (1 - x)) by (apply Rmult_lt_0_compat; lra). assert (0 <= (1 - r) * (1 - r)) by apply Rle_0_sqr.
    replace (1 + r * r - 2 * r * x) with ((1 - r) * (1 - r) + 2 * (r * (1 - x))) by ring. lra.
Qed.
Lemma l_D2pos r t c s m : c * c + s * s = 1 -> 0 <= r -> (r <> 1 \/ cos t * c + sin t * s <> 1) -> 0 < lD1 r t c s /\ 0 < lD2 r t c s m.
Proof.
  intros H Hr HH. pose proof (l_pos r t c s H Hr HH) as HP. unfold lD2. assert (H1 : 0 < lD1 r t c s) by (apply sqrt_lt_R0, HP). split; [exact H1|].
  assert (HQ : lD1 r t c s * lD1 r t c s = 1 + r * r - 2 * r * (cos t * c + sin t * s)) by (unfold lD1; apply sqrt_sqrt; lra).
  pose proof (sin2_cos2 t) as HT. unfold Rsqr in HT.
  assert (HB : Rabs (cos t - r * c) <= lD1 r t c s).
  { rewrite <- (Rabs_pos_eq (lD1 r t c s)) by lra. apply Rsqr_le_abs_0. unfold Rsqr. rewrite HQ.
    assert (0 <= (sin t - r * s) * (sin t - r * s)) by apply Rle_0_sqr.
    assert (E1 : (sin t - r * s) * (sin t - r * s) = sin t * sin t - 2 * r * (sin t * s) + r * r * (s * s)) by ring. replace (sin t * sin t) with (1 - cos t * cos t) in E1 by lra. replace (s * s) with (1 - c * c) in E1 by lra. nra. }
  assert (HS : Rabs m < sqrt (1 + m * m)).
  { apply Rsqr_incrst_0; [|apply Rabs_pos|apply sqrt_pos]. rewrite <- Rsqr_abs. unfold Rsqr. rewrite sqrt_sqrt by nra. lra. }
  assert (HM : Rabs (m * (cos t - r * c)) <= Rabs m * lD1 r t c s) by (rewrite Rabs_mult; apply Rmult_le_compat_l; [apply Rabs_pos|exact HB]).
  assert (HL : Rabs m * lD1 r t c s < sqrt (1 + m * m) * lD1 r t c s) by (apply Rmult_lt_compat_r; assumption).
  pose proof (Rle_abs (- (m * (cos t - r * c)))) as HA. rewrite Rabs_Ropp in HA. lra.
Qed.
Lemma lim_regular g t c s m : c * c + s * s = 1 -> cos t * c + sin t * s <> 1 -> filterlim (fun r => (1 - r) * lterm g r t c s m) (at_left 1) (locally 0).
Proof.
  intros H HX. destruct (l_D2pos 1 t c s m H) as [H1 H2]; [lra|right; exact HX|]. pose proof (l_pos 1 t c s H ltac:(lra) (or_intror HX)) as H0.
  refine (filterlim_filter_le_1 _ (filter_le_within (F := locally (1 : R)) _) _).
  replace 0 with ((1 - 1) * lterm g 1 t c s m) by ring.
  change (continuous (fun r => (1 - r) * lterm g r t c s m) 1). apply (ex_derive_continuous (V := R_NormedModule)).
  unfold lterm, lD2, lD1 in *. auto_derive. unfold Rminus in *. repeat match goal with |- _ /\ _ => split end; try exact I; try lra; apply Rmult_integral_contrapositive_currified; lra.
Qed.
Lemma term_singular g r t c s m : c * c + s * s = 1 -> cos t * c + sin t * s = 1 -> 0 <= r < 1 -> (1 - r) * lterm g r t c s m = g / (4 * PI) * s / (m * c + sqrt (1 + m * m)).
Proof.
  intros H HX Hr. pose proof (sin2_cos2 t) as HT. unfold Rsqr in HT.
  assert (HZ : (cos t - c) * (cos t - c) + (sin t - s) * (sin t - s) = 0) by nra.
  assert (EC : cos t = c) by (apply Rminus_diag_uniq, Rsqr_0_uniq; unfold Rsqr; assert (0 <= (sin t - s) * (sin t - s)) by apply Rle_0_sqr; assert (0 <= (cos t - c) * (cos t - c)) by apply Rle_0_sqr; lra).
  assert (ES : sin t = s) by (apply Rminus_diag_uniq, Rsqr_0_uniq; unfold Rsqr; assert (0 <= (sin t - s) * (sin t - s)) by apply Rle_0_sqr; assert (0 <= (cos t - c) * (cos t - c)) by apply Rle_0_sqr; lra).
  destruct (l_D2pos r t c s m H) as [H1 H2]; [lra|left; lra|]. unfold lterm.
  assert (E1 : lD1 r t c s = 1 - r).
  { unfold lD1. rewrite HX. replace (1 + r * r - 2 * r * 1) with ((1 - r) * (1 - r)) by ring. apply sqrt_square. lra. }
  unfold lD2 in *. rewrite E1, EC, ES in *. pose proof PI_RGT_0.
  assert (E2 : m * c + sqrt (1 + m * m) * (1 - r) - m * r * c = (1 - r) * (m * c + sqrt (1 + m * m))) by ring. rewrite E2 in *.
  assert (0 < m * c + sqrt (1 + m * m)) by (apply Rmult_lt_reg_l with (1 - r); lra). field. repeat split; lra.
Qed.
Lemma lim_singular g t c s m : c * c + s * s = 1 -> cos t * c + sin t * s = 1 -> filterlim (fun r => (1 - r) * lterm g r t c s m) (at_left 1) (locally (g / (4 * PI) * s / (m * c + sqrt (1 + m * m)))).
Proof.
  intros H HX. apply (filterlim_ext_loc (fun _ => g / (4 * PI) * s / (m * c + sqrt (1 + m * m)))); [|apply filterlim_const].
  assert (Hp : 0 < 1) by lra. exists (mkposreal 1 Hp). intros y Hy Hlt. symmetry. apply term_singular; auto. cbn in Hy. unfold AbsRing_ball in Hy. cbn in Hy. unfold abs, minus, plus, opp in Hy. cbn in Hy.
  apply Rabs_def2 in Hy. lra.
Qed.
Definition lnodes : list R := map (fun i => 2 * PI * INR i / 179 + PI / 180) (seq 0 180).
Lemma svl_nodes : svl_vtheta (N := XN) 180 = map (fun t => Fin t) lnodes.
Proof.
  unfold svl_vtheta, linspace, lnodes. rewrite !map_map. apply map_ext. intros i. cbn -[Z.of_nat INR]. rewrite <- !INR_IZR_INZ.
  assert (E1 : INR 179 = 179) by (rewrite INR_IZR_INZ; reflexivity). assert (E2 : INR 180 = 180) by (rewrite INR_IZR_INZ; reflexivity). rewrite E1, E2.
  destruct (Reqb_spec 179 0); [lra|]. destruct (Reqb_spec 180 0); [lra|]. cbn -[INR]. f_equal. field.
Qed.
(** the kernel at a point of the plane of the rotor is the sum of these terms *)
Lemma plane_polar rho c s : 0 < rho -> c * c + s * s = 1 -> to_polar (N := XN) (Fin (rho * c), Fin (rho * s), Fin 0) = (Fin rho, Fin (Ratan2 (rho * s) (rho * c)), Fin 0) /\
  cos (Ratan2 (rho * s) (rho * c)) = c /\ sin (Ratan2 (rho * s) (rho * c)) = s.
Proof.
  intros Hr H. assert (E : rho * c * (rho * c) + rho * s * (rho * s) = rho * rho) by (replace (rho * c * (rho * c) + rho * s * (rho * s)) with (rho * rho * (c * c + s * s)) by ring; rewrite H; ring).
  assert (Hn : rho * c * (rho * c) + rho * s * (rho * s) <> 0) by (rewrite E; nra). rewrite Ratan2_cos, Ratan2_sin, E, sqrt_square by (assumption || lra). split; [|split; field; lra].
  unfold to_polar. f_equal. f_equal. cbn. rewrite E. destruct (Rltb_spec (rho * rho) 0); [nra|]. rewrite sqrt_square by lra. reflexivity.
Qed.
Lemma den_term g r t psi c s m : 0 <= r < 1 -> c * c + s * s = 1 -> cos psi = c -> sin psi = s ->
  svl_den (N := XN) (Fin g) (Fin m) (Fin r) (Fin psi) (Fin 0) (Fin t) = Fin (g / (4 * PI) / (lD1 r t c s * lD2 r t c s m)).
Proof.
  intros Hr H HC HS. destruct (l_D2pos r t c s m H) as [H1 H2]; [lra|left; lra|]. assert (H0 : 0 < 1 + r * r - 2 * r * (cos t * c + sin t * s)) by (apply l_pos; [exact H|lra|left; lra]).
  unfold svl_den. 
  assert (E1 : nsqrt XN (nsub XN (nadd XN (nadd XN (nZ XN 1) (sq (Fin r : XN))) (sq (Fin 0 : XN))) (nmul XN (nmul XN (nZ XN 2) (Fin r)) (ncos XN (nsub XN (Fin t) (Fin psi))))) = Fin (lD1 r t c s)).
  { cbn. rewrite cos_minus, HC, HS. replace (1 + r * r + 0 * 0 - 2 * r * (cos t * c + sin t * s)) with (1 + r * r - 2 * r * (cos t * c + sin t * s)) by ring.
    destruct (Rltb_spec (1 + r * r - 2 * r * (cos t * c + sin t * s)) 0); [lra|]. reflexivity. }
  rewrite E1. assert (E2 : nsqrt XN (nadd XN (nZ XN 1) (sq (Fin m : XN))) = Fin (sqrt (1 + m * m))) by (cbn; destruct (Rltb_spec (1 + m * m) 0); [nra|reflexivity]). rewrite E2.
  assert (E3 : nsub XN (nadd XN (nadd XN (nopp XN (Fin 0)) (nmul XN (Fin m) (ncos XN (Fin t)))) (nmul XN (Fin (sqrt (1 + m * m))) (Fin (lD1 r t c s)))) (nmul XN (nmul XN (Fin m) (Fin r)) (ncos XN (Fin psi))) = Fin (lD2 r t c s m)).
  { cbn. rewrite HC. f_equal. unfold lD2. ring. }
  rewrite E3. pose proof PI_RGT_0. cbn. destruct (Reqb_spec (4 * PI) 0); [lra|]. cbn.
  destruct (Reqb_spec (lD1 r t c s * lD2 r t c s m) 0) as [E|E]; [exfalso; apply Rmult_integral in E; lra|]. reflexivity.
Qed.
Lemma svl_sum (f : XN -> XN) (h : R -> R) g r psi c s m : (forall t, f (Fin t) = Fin (h t)) -> 0 <= r < 1 -> c * c + s * s = 1 -> cos psi = c -> sin psi = s ->
  trapz (map (fun th => nmul XN (f th) (svl_den (N := XN) (Fin g) (Fin m) (Fin r) (Fin psi) (Fin 0) th)) (svl_vtheta 180)) (svl_vtheta 180) =
    Fin (TR (fun t => h t * (g / (4 * PI) / (lD1 r t c s * lD2 r t c s m))) lnodes).
Proof.
  intros Hf Hr H HC HS. rewrite trapz_tz, svl_nodes, map_map.
  apply (tz_TR (fun th => nmul XN (f th) (svl_den (N := XN) (Fin g) (Fin m) (Fin r) (Fin psi) (Fin 0) th)) (fun t => h t * (g / (4 * PI) / (lD1 r t c s * lD2 r t c s m)))).
  intros t _. rewrite Hf, (den_term g r t psi c s m) by assumption. reflexivity.
Qed.
Lemma longi_value g R r c s m : 0 < R -> 0 < r < 1 -> c * c + s * s = 1 ->
  exists b d, svc_longi_u (N := XN) (Fin g) (Fin R) (Fin m) 180 false (Fin (R * r * c), Fin (R * r * s), Fin 0) = (Fin (TR (fun t => lterm g r t c s m) lnodes), Fin b, Fin d).
Proof.
  intros HR Hr H. assert (HP : 0 < R * r) by (apply Rmult_lt_0_compat; lra). 
  unfold svc_longi_u. destruct (plane_polar (R * r) c s HP H) as (E & HC & HS). rewrite E. set (psi := Ratan2 (R * r * s) (R * r * c)) in *. clearbody psi.
  unfold svc_longi_u_polar. assert (E1 : ndiv XN (Fin (R * r)) (Fin R) = Fin r) by (cbn; destruct (Reqb_spec R 0); [lra|]; f_equal; field; lra).
  assert (E2 : ndiv XN (Fin 0) (Fin R) = Fin 0) by (cbn; destruct (Reqb_spec R 0); [lra|]; f_equal; field; lra). rewrite E1, E2.
  eexists. eexists. apply pt_eq.
  - apply (svl_sum (fun th => nsub XN (nsin XN th) (nmul XN (Fin r) (nsin XN (Fin psi)))) (fun t => sin t - r * s)); try assumption; [|lra]. intros t. cbn. rewrite HS. reflexivity.
  - apply (svl_sum (fun th => nadd XN (nsub XN (nmul XN (nopp XN (Fin m)) (Fin 0)) (ncos XN th)) (nmul XN (Fin r) (ncos XN (Fin psi)))) (fun t => - m * 0 - cos t + r * c)) with (c := c) (s := s); try assumption; [|lra]. intros t. cbn. rewrite HC. reflexivity.
  - apply (svl_sum (fun th => nmul XN (Fin m) (nadd XN (nopp XN (nsin XN th)) (nmul XN (Fin r) (nsin XN (Fin psi))))) (fun t => m * (- sin t + r * s))) with (c := c) (s := s); try assumption; [|lra]. intros t. cbn. rewrite HS. reflexivity.
Qed.
Lemma TR_add f h : forall l, TR (fun t => f t + h t) l = TR f l + TR h l.
Proof. induction l as [|a [|b l] IH]; [cbn; ring|cbn; ring|]. rewrite !TR_cons, IH. field. Qed.
Lemma TR_scal k f : forall l, TR (fun t => k * f t) l = k * TR f l.
Proof. induction l as [|a [|b l] IH]; [cbn; ring|cbn; ring|]. rewrite !TR_cons, IH. field. Qed.
Lemma TR_ext f h : forall l, (forall t, In t l -> f t = h t) -> TR f l = TR h l.
Proof. induction l as [|a [|b l] IH]; intros H; [reflexivity..|]. rewrite !TR_cons, IH by (intros; apply H; right; assumption). rewrite !H by (cbn; auto). reflexivity. Qed.
Lemma TR_nonneg f : (forall t, 0 <= f t) -> forall k n, 0 <= TR f (map (fun i => 2 * PI * INR i / 179 + PI / 180) (seq k n)).
Proof.
  intros H k n. revert k. induction n as [|[|n] IH]; intros k; [cbn; lra..|]. cbn [seq map] in *. rewrite TR_cons. specialize (IH (S k)). cbn [seq map] in IH.
  assert (0 <= 2 * PI * INR (S k) / 179 + PI / 180 - (2 * PI * INR k / 179 + PI / 180)) by (rewrite S_INR; pose proof PI_RGT_0; lra).
  pose proof (H (2 * PI * INR (S k) / 179 + PI / 180)). pose proof (H (2 * PI * INR k / 179 + PI / 180)).
  apply Rplus_le_le_0_compat; [|exact IH]. apply Rmult_le_pos; [|lra]. apply Rmult_le_pos; lra.
Qed.
Definition sing (c s t : R) : R := if Req_EM_T (cos t * c + sin t * s) 1 then 1 else 0.
Lemma sing_pos : 0 < TR (sing (cos (PI / 180)) (sin (PI / 180))) lnodes.
Proof.
  unfold lnodes. change (seq 0 180) with (0%nat :: 1%nat :: seq 2 178). cbn [map]. rewrite TR_cons.
  assert (HN : forall t, 0 <= sing (cos (PI / 180)) (sin (PI / 180)) t) by (intros t; unfold sing; destruct (Req_EM_T _ _); lra).
  pose proof (TR_nonneg _ HN 1 179) as HT. change (seq 1 179) with (1%nat :: seq 2 178) in HT. cbn [map] in HT.
  assert (E0 : sing (cos (PI / 180)) (sin (PI / 180)) (2 * PI * INR 0 / 179 + PI / 180) = 1).
  { replace (2 * PI * INR 0 / 179 + PI / 180) with (PI / 180) by (cbn; field). unfold sing. destruct (Req_EM_T _ 1) as [_|H]; [reflexivity|]. exfalso. apply H.
    pose proof (sin2_cos2 (PI / 180)) as K. unfold Rsqr in K. lra. }
  rewrite E0. specialize (HN (2 * PI * INR 1 / 179 + PI / 180)). pose proof PI_RGT_0.
  assert (0 < 2 * PI * INR 1 / 179 + PI / 180 - (2 * PI * INR 0 / 179 + PI / 180)) by (cbn; lra).
  apply Rplus_lt_le_0_compat; [|exact HT]. apply Rmult_lt_0_compat; [|lra]. apply Rmult_lt_0_compat; lra.
Qed.
(** no node is the mirror image of the first one *)
Lemma nodes_far t : In t lnodes -> cos t * - cos (PI / 180) + sin t * sin (PI / 180) <> 1.
Proof.
  unfold lnodes. rewrite in_map_iff. intros (i & <- & _) H.
  assert (HC : cos (2 * PI * INR i / 179 + PI / 180 + PI / 180) = -1) by (rewrite cos_plus; lra).
  assert (HS : sin (2 * PI * INR i / 179 + PI / 180 + PI / 180) = 0).
  { pose proof (sin2_cos2 (2 * PI * INR i / 179 + PI / 180 + PI / 180)) as K. unfold Rsqr in K. rewrite HC in K. apply Rsqr_0_uniq. unfold Rsqr. lra. }
  apply sin_eq_0_0 in HS. destruct HS as [k Hk]. pose proof PI_RGT_0 as HP. rewrite INR_IZR_INZ in Hk.
  assert (E : 360 * IZR (Z.of_nat i) + 358 = 32220 * IZR k).
  { apply Rmult_eq_reg_l with PI; [|lra]. replace (PI * (32220 * IZR k)) with (32220 * (IZR k * PI)) by ring. rewrite <- Hk. field. }
  assert (EZ : (360 * Z.of_nat i + 358 = 32220 * k)%Z) by (apply eq_IZR; rewrite plus_IZR, !mult_IZR; exact E). lia.
Qed.
(** with a skewed wake the longitudinal vorticity of the rotor turning the other way is not the mirror image: at some regular point the sideways
    velocities are finite and not opposite *)
Theorem C151_longi_refuted : forall g R m, g <> 0 -> 0 < R -> exists r a b d a' b' d', 0 < r < 1 /\
  let p : pt := (Fin (R * r * cos (PI / 180)), Fin (R * r * sin (PI / 180)), Fin 0) in
  svc_longi_u (N := XN) (Fin g) (Fin R) (Fin m) 180 false p = (Fin a, Fin b, Fin d) /\
  svc_longi_u (N := XN) (Fin (- g)) (Fin R) (Fin (- m)) 180 false (flip3 p) = (Fin a', Fin b', Fin d') /\ a' <> - a.
Proof.
  intros g R m Hg HR. set (c := cos (PI / 180)). set (s := sin (PI / 180)).
  assert (H : c * c + s * s = 1) by (pose proof (sin2_cos2 (PI / 180)) as K; unfold Rsqr in K; unfold c, s; lra).
  assert (H' : - c * - c + s * s = 1) by lra.
  assert (Hs : 0 < s) by (apply sin_gt_0; pose proof PI_RGT_0; lra).
  assert (HE : exists r, 0 < r < 1 /\ TR (fun t => lterm (- g) r t (- c) s (- m)) lnodes <> - TR (fun t => lterm g r t c s m) lnodes).
  { apply Classical_Prop.NNPP. intros HN.
    assert (HA : forall r, 0 < r < 1 -> TR (fun t => lterm (- g) r t (- c) s (- m)) lnodes = - TR (fun t => lterm g r t c s m) lnodes).
    { intros r Hr. destruct (Req_dec (TR (fun t => lterm (- g) r t (- c) s (- m)) lnodes) (- TR (fun t => lterm g r t c s m) lnodes)) as [E|E]; [exact E|]. exfalso. apply HN. exists r. auto. }
    set (K := g / (4 * PI) * s / (m * c + sqrt (1 + m * m))).
    assert (L1 : filterlim (fun r => TR (fun t => (1 - r) * lterm g r t c s m + (1 - r) * lterm (- g) r t (- c) s (- m)) lnodes) (at_left 1) (locally (TR (fun t => K * sing c s t) lnodes))).
    { apply lim_TR. intros t Ht. replace (K * sing c s t) with (K * sing c s t + 0) by ring.
      apply (filterlim_comp_2 (F := at_left 1) (G := locally (K * sing c s t)) (H := locally 0) (fun r => (1 - r) * lterm g r t c s m) (fun r => (1 - r) * lterm (- g) r t (- c) s (- m)) Rplus).
      - unfold sing. destruct (Req_EM_T _ 1) as [E|E]; [rewrite Rmult_1_r; apply lim_singular; assumption|rewrite Rmult_0_r; apply lim_regular; assumption].
      - apply lim_regular; [exact H'|]. apply nodes_far, Ht.
      - apply (filterlim_plus (K := R_AbsRing) (V := R_NormedModule)). }
    assert (L2 : filterlim (fun r => TR (fun t => (1 - r) * lterm g r t c s m + (1 - r) * lterm (- g) r t (- c) s (- m)) lnodes) (at_left 1) (locally 0)).
    { apply (filterlim_ext_loc (fun _ => 0)); [|apply filterlim_const]. assert (Hp : 0 < 1) by lra. exists (mkposreal 1 Hp). intros y Hy Hlt. rewrite TR_add, !TR_scal.
      cbn in Hy. unfold AbsRing_ball in Hy. cbn in Hy. unfold abs, minus, plus, opp in Hy. cbn in Hy. apply Rabs_def2 in Hy. rewrite HA by lra. ring. }
    pose proof (filterlim_locally_unique (F := at_left 1) _ _ _ L1 L2) as E. rewrite TR_scal in E. pose proof sing_pos as HP. fold c s in HP.
    assert (HD : 0 < lD2 0 0 c s m) by (apply l_D2pos; [exact H|lra|left; lra]). pose proof PI_RGT_0.
    assert (HQ : 0 < m * c + sqrt (1 + m * m)).
    { assert (HB : Rabs c <= 1) by (apply Rabs_le; pose proof (COS_bound (PI / 180)); unfold c; lra).
      assert (HS : Rabs m < sqrt (1 + m * m)) by (apply Rsqr_incrst_0; [rewrite <- Rsqr_abs; unfold Rsqr; rewrite sqrt_sqrt by nra; lra|apply Rabs_pos|apply sqrt_pos]).
      assert (HM : Rabs (m * c) <= Rabs m * 1) by (rewrite Rabs_mult; apply Rmult_le_compat_l; [apply Rabs_pos|exact HB]).
      pose proof (Rle_abs (- (m * c))) as HL. rewrite Rabs_Ropp in HL. lra. }
    apply Rmult_integral in E. destruct E as [E|E]; [|lra]. unfold K in E. unfold Rdiv in E.
    repeat (apply Rmult_integral in E; destruct E as [E|E]); try lra; try (revert E; apply Rinv_neq_0_compat; lra). }
  destruct HE as (r & Hr & HE). destruct (longi_value g R r c s m HR Hr H) as (b & d & E1). destruct (longi_value (- g) R r (- c) s (- m) HR Hr H') as (b' & d' & E2).
  exists r, (TR (fun t => lterm g r t c s m) lnodes), b, d, (TR (fun t => lterm (- g) r t (- c) s (- m)) lnodes), b', d'. split; [exact Hr|]. cbv zeta. split; [exact E1|]. split; [|exact HE].
  unfold flip3, mir; cbn [eqc flip]. change (nopp XN (Fin (R * r * c))) with (Fin (- (R * r * c)) : XN). replace (- (R * r * c)) with (R * r * - c) by ring. exact E2.
Qed.
(** a query: a rotor with a wake skewed by [c], its longitudinal vorticity alone *)
Definition longi_opts : opts XN :=
  {| o_only_ind := true; o_longi := true; o_tang := false; o_root := false; o_no_wake := false; o_ground := None; o_Model := None; o_far := nZ XN 6 |}.
Lemma longi_query (t : turbine XN) (c g a b d R : R) M h (P : pt) : chi_now t = Fin c -> skewed (N := XN) (Fin c) = true -> cos c <> 0 -> t_gt t = Some [Fin (-1)] -> t_gl t = Some (Some [Fin g]) -> g <> 0 ->
  t_R t = Fin R -> t_model t = "VC"%string -> t_ground t = false -> T_c2g t = M -> transform_T M (t_rhub t) = h ->
  svc_longi_u (N := XN) (Fin g) (Fin R) (Fin (tan c)) 180 false (shift h (transform_T M P)) = (Fin a, Fin b, Fin d) ->
  snd (compute_u t longi_opts [P]) = Ok [transform M (Fin a, Fin b, Fin d)].
Proof.
  intros E1 E2 E3 E4 E5 E6 E7 E8 E9 E10 E11 E12. unfold compute_u. rewrite E1, E4, E8, E9, E10, E11. cbn [snd longi_opts o_ground o_Model o_only_ind o_no_wake]. unfold cu_root. cbn [longi_opts o_root].
  cbn [Num.bind]. unfold cu_single. unfold ylist. cbn [map fold_left Num.bind longi_opts o_tang o_longi andb]. unfold gl_active1. rewrite E5. cbn [negb].
  assert (EG : neqb XN (Fin g) (nZ XN 0) = false) by (apply Reqb_false; exact E6). rewrite EG. cbn [Num.bind]. unfold cu_longi1. rewrite E2, E7. cbn [String.eqb Ascii.eqb Bool.eqb].
  assert (ET : ntan XN (Fin c) = Fin (tan c)) by (cbn; destruct (Reqb_spec (cos c) 0); [contradiction|reflexivity]). rewrite ET. cbn [map]. rewrite E12. cbn [Num.bind].
  unfold fzero, fadd. cbn [map map2]. do 3 f_equal. cbn. apply pt_eq; f_equal; ring.
Qed.
Theorem C151_query_refuted : forall c, 1 / 100 <= c < PI / 2 -> exists P u v : R3,
  snd (compute_u (ex_swirl c) longi_opts [lift3 P]) = Ok [lift3 u] /\
  snd (compute_u (image cY (ex_swirl c)) longi_opts [mir cY (lift3 P)]) = Ok [lift3 v] /\
  lift3 v <> mir cY (lift3 u).
Proof.
  intros c Hc. destruct (C151_longi_refuted (-1) 2 (tan c)) as (r & a & b & d & a' & b' & d' & Hr & H1 & H2 & H3); [lra..|]. cbv zeta in *.
  set (x := 2 * r * cos (PI / 180)) in *. set (y := 2 * r * sin (PI / 180)) in *. exists (1, x, y + 80), (d, a, b), (d', a', b').
  assert (HC : 0 < cos c) by (apply cos_gt_0; lra).
  assert (EP : shift (transform_T (liftM ((0, 0, 1), (1, 0, 0), (0, 1, 0))) (lift3 (1, 0, 80))) (transform_T (liftM ((0, 0, 1), (1, 0, 0), (0, 1, 0))) (lift3 (1, x, y + 80))) = (Fin x, Fin y, Fin 0)).
  { rewrite !transform_T_lift, shift_lift. unfold sub3, lift3, px, py, pz; cbn. unfold px, py, pz; cbn. apply pt_eq; f_equal; ring. }
  assert (EB : forall p q r, transform (liftM ((0, 0, 1), (1, 0, 0), (0, 1, 0))) (Fin p, Fin q, Fin r) = lift3 (r, p, q)).
  { intros p q s. change (Fin p, Fin q, Fin s) with (lift3 (p, q, s)). rewrite transform_lift. unfold lift3, px, py, pz; cbn. unfold px, py, pz; cbn. apply pt_eq; f_equal; ring. }
  assert (K : forall s, Rabs s = c -> skewed (N := XN) (Fin s) = true) by (intros s Hs; unfold skewed; cbn; apply Rltb_true; rewrite Hs; lra).
  split; [|split].
  - rewrite <- (EB a b d). apply (longi_query (ex_swirl c) c (-1) a b d 2 _ (transform_T (liftM ((0, 0, 1), (1, 0, 0), (0, 1, 0))) (lift3 (1, 0, 80)))); try (apply K, Rabs_pos_eq; lra); try lra; try apply ex_c2g; try reflexivity.
    rewrite <- H1, EP. reflexivity.
  - assert (ES : chi_now (image cY (ex_swirl c)) = Fin (- c)) by reflexivity.
    assert (EF : lift3 (d', a', b') = transform (mirM cY cX (T_c2g (ex_swirl c))) (Fin a', Fin b', Fin d')).
    { replace (Fin a', Fin b', Fin d') with (flip3 (Fin (- a'), Fin b', Fin d') : pt) by (unfold flip3, mir; cbn [eqc flip]; cbn; rewrite Ropp_involutive; reflexivity).
      rewrite m_transform, ex_c2g, EB. unfold mir, lift3, px, py, pz; cbn. rewrite Ropp_involutive. reflexivity. }
    rewrite EF. apply (longi_query (image cY (ex_swirl c)) (- c) 1 a' b' d' 2 _ (flip3 (transform_T (T_c2g (ex_swirl c)) (lift3 (1, 0, 80))))); try lra; try reflexivity.
    + apply K. rewrite Rabs_Ropp. apply Rabs_pos_eq; lra.
    + rewrite cos_neg; lra.
    + change (t_gl (image cY (ex_swirl c))) with (Some (Some [Fin (- -1)]) : option (option (list XN))). replace (- -1) with 1 by ring. reflexivity.
    + change (T_c2g (image cY (ex_swirl c))) with (T_c2g (mirrored cY (ex_swirl c))). apply m_Tc2g.
    + change (t_rhub (image cY (ex_swirl c))) with (mir cY (lift3 (1, 0, 80))). apply m_transform_T.
    + rewrite !m_transform_T, m_shift, ex_c2g, EP. rewrite tan_neg. replace 1 with (- -1) by ring. exact H2.
  - intros E. unfold mir, lift3, px, py, pz in E; cbn in E. inversion E. lra.
Qed.
