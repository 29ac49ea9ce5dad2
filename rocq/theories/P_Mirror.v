(** * C148: mirror symmetry: a rotor yawed to one side and a rotor yawed to the other *)
From Coq Require Import Reals Lra ZArith List Bool String Lia.
From Verif Require Import Num NumR NumX M_Elliptic M_Line M_Doublet M_Cylinder M_Misc M_Skewed M_Solver M_Turbine M_Farm L_Mirror P_Units.
Import ListNotations.
Local Open Scope R_scope.
Local Open Scope list_scope.
Local Notation len := List.length.
Notation pt := (XN * XN * XN)%type.

(** ** Specification: reflection in a coordinate plane *)
Inductive coord := cX | cY | cZ.
Definition eqc (i j : coord) : bool := match i, j with cX, cX | cY, cY | cZ, cZ => true | _, _ => false end.
Definition mir (i : coord) (p : pt) : pt := let '(x, y, z) := p in (flip (eqc i cX) x, flip (eqc i cY) y, flip (eqc i cZ) z).
(** the same in the axes of the rotor: only the sideways axis changes sign *)
Definition flip3 (p : pt) : pt := mir cX p.
(** a matrix of components, rows along the global axes: row [i] changes sign because the space is reflected, column [j] because the direction it
    describes is one that the reflection turns round *)
Definition mirM (i j : coord) (M : pt * pt * pt) : pt * pt * pt :=
  let row k (r : pt) : pt := let '(a, b, c) := r in (flip (xorb (eqc i k) (eqc j cX)) a, flip (xorb (eqc i k) (eqc j cY)) b, flip (xorb (eqc i k) (eqc j cZ)) c) in
  let '(r0, r1, r2) := M in (row cX r0, row cY r1, row cZ r2).
(** the turbine seen in the mirror [i]: hub, axes, wind and shaft reflected, yaw and skew angles reversed; the same radius, loading and options *)
Definition mirrored (i : coord) (t : turbine XN) : turbine XN :=
  {| t_R := t_R t; t_rhub := mir i (t_rhub t); t_shaft := mir i (t_shaft t); t_shaft0 := mir i (t_shaft0 t); t_vert := mir i (t_vert t); t_horz := mir i (t_horz t);
     t_TF2g := mirM i cY (t_TF2g t); t_Tc2wt := mirM i cX (t_Tc2wt t); t_Twt2g := mirM i i (t_Twt2g t); t_yaw := nopp XN (t_yaw t); t_U0 := mir i (t_U0 t);
     t_r := t_r t; t_gt := t_gt t; t_gl := t_gl t; t_Gr := t_Gr t; t_Lambda := t_Lambda t; t_ground := t_ground t; t_chi := option_map (nopp XN) (t_chi t);
     t_model := t_model t; t_Ct := t_Ct t; t_name := t_name t |}.

(** ** Lists *)
Inductive allp {A B} (P : A -> B -> Prop) : list A -> list B -> Prop :=
| allp_l u : allp P [] u
| allp_r p : allp P p []
| allp_c a p b u : P a b -> allp P p u -> allp P (a :: p) (b :: u).
Lemma allp_scatter {A B} (P : A -> B -> Prop) : forall m pts vals dflt, allp P (gather m pts) vals -> allp P pts dflt -> allp P pts (scatter m vals dflt).
Proof.
  induction m as [|[] m IH]; intros pts vals dflt H K.
  - destruct dflt; constructor.
  - destruct dflt as [|d dflt]; [destruct vals; constructor|]. destruct vals as [|v vals]; cbn [scatter]; [constructor|].
    destruct pts as [|p pts]; [constructor|]. cbn [gather] in H. inversion H; subst. inversion K; subst. constructor; auto.
  - destruct dflt as [|d dflt]; [destruct vals; constructor|]. destruct pts as [|p pts]; [constructor|]. cbn [gather] in H. inversion K; subst.
    cbn [scatter]. constructor; auto.
Qed.
Lemma allp_map {A B} (P : A -> B -> Prop) (g : A -> B) : (forall a, P a (g a)) -> forall l, allp P l (map g l).
Proof. intros H. induction l; constructor; auto. Qed.
Lemma allp_mask {A B} (P : A -> B -> Prop) (f : A -> bool) (g : A -> B) : (forall a b, f a = true -> P a b) -> (forall a, f a = false -> P a (g a)) ->
  forall l vals, allp P l (scatter (map f l) vals (map g l)).
Proof.
  intros H1 H2. induction l as [|a l IH]; intros vals; [constructor|]. cbn [map]. destruct (f a) eqn:E; cbn [scatter].
  - destruct vals; constructor; auto.
  - constructor; auto.
Qed.
Lemma map2_allp {A A' B C C'} (P : A -> B -> Prop) (f : A -> B -> C) (f' : A' -> B -> C') (k : A -> A') (h : C -> C') :
  (forall a b, P a b -> f' (k a) b = h (f a b)) -> forall l u, allp P l u -> map2 f' (map k l) u = map h (map2 f l u).
Proof. intros E l u H. induction H; [reflexivity|destruct p; reflexivity|]. cbn [map map2]. rewrite E by assumption. f_equal. exact IHallp. Qed.

(** ** The axis of the rotor *)
Definition onaxis (p : pt) : Prop := exists z, p = (Fin 0, Fin 0, z).
(** a radial velocity that is its own opposite *)
Definition radial (p : pt) (u : XN * XN) : Prop := onaxis p -> nopp XN (fst u) = fst u.
Lemma m_r p : vc_r (flip3 p) = vc_r p.
Proof. destruct p as [[x y] z]. unfold vc_r, flip3, mir; cbn [eqc flip]. refine (sg_same _ _ _). parw. Qed.
Lemma m_snd p : snd (flip3 p) = snd p.
Proof. destruct p as [[x y] z]. reflexivity. Qed.
Lemma m_rz pts : map (fun p => (vc_r p, snd p)) (map flip3 pts) = map (fun p : pt => (vc_r p, snd p)) pts.
Proof. rewrite map_map. apply map_ext. intros p. rewrite m_r, m_snd. reflexivity. Qed.
Lemma sgT (x x' : XN) : sg true x x' -> x' = nopp XN x.
Proof. auto. Qed.
Lemma m_cart p u : radial p u -> cart_of_polar2 (flip3 p) u = flip3 (cart_of_polar2 p u).
Proof.
  destruct p as [[x y] z], u as [a b]. intros H. unfold cart_of_polar2, flip3, mir; cbn [eqc flip]. cbn [fst snd].
  destruct (atan2_mirror x y) as [[-> ->]|[HC HS]].
  - specialize (H (ex_intro _ z eq_refl)). cbn [fst] in H. replace (nopp XN (Fin 0)) with (Fin 0 : XN) by (cbn; f_equal; ring).
    f_equal; f_equal. change a with (fst (a, b)). rewrite <- (proj2 (conj I H)) at 1. cbn [fst].
    apply sgT. eapply sg_b; [|eapply sg_mul; [apply sg_opp1|apply sg_const]]. reflexivity.
  - rewrite (sg_same _ _ HS). f_equal. f_equal. apply sgT. eapply sg_b; [|eapply sg_mul; [apply sg_const|exact HC]]. reflexivity.
Qed.
Lemma axis_r z : vc_r (N := XN) (Fin 0, Fin 0, z) = Fin 0.
Proof. cbn. replace (0 * 0 + 0 * 0) with 0 by ring. destruct (Rltb_spec 0 0); [lra|]. rewrite sqrt_0. reflexivity. Qed.
Lemma axis_normal R z : 0 < R -> vc_normal (N := XN) (Fin R) (vc_r (N := XN) (Fin 0, Fin 0, z), z) = false.
Proof.
  intros HR. rewrite axis_r. unfold vc_normal, vc_isaxis. cbn [fst snd]. replace (nlt XN (Fin 0) (nmul XN EPS_AXIS (Fin R))) with true; [reflexivity|].
  symmetry. apply Rltb_true. lra.
Qed.
Lemma opp0 : nopp XN (nZ XN 0) = nZ XN 0.
Proof. cbn. f_equal. ring. Qed.
Lemma special0 g R rz : fst (vc_special g R rz) = nZ XN 0.
Proof. unfold vc_special. destruct rz as [r z]. destruct (vc_isrim R r z); reflexivity. Qed.
Lemma tang_radial PIb g R e pts : 0 < R -> allp radial pts (vc_tang_polar_gen (N := XN) PIb g (Fin R) e pts).
Proof.
  intros HR. unfold vc_tang_polar_gen. rewrite !map_map. apply allp_mask.
  - intros p u E [z ->]. exfalso. rewrite axis_normal in E by exact HR. discriminate.
  - intros p _ _. rewrite special0. apply opp0.
Qed.
(** ** The straight cylinder *)
Lemma m_tang_polar PIb g R e pts : vc_tang_polar_gen PIb g R e (map flip3 pts) = vc_tang_polar_gen PIb g R e pts.
Proof. unfold vc_tang_polar_gen. rewrite m_rz. reflexivity. Qed.
Lemma m_tang PIb g R e pts : 0 < R -> vc_tang_u_gen (N := XN) PIb g (Fin R) e (map flip3 pts) = map flip3 (vc_tang_u_gen (N := XN) PIb g (Fin R) e pts).
Proof. intros HR. unfold vc_tang_u_gen. rewrite m_tang_polar. apply (map2_allp radial); [intros; apply m_cart; assumption|apply tang_radial, HR]. Qed.
Lemma allp_impl {A B} (P Q : A -> B -> Prop) l u : (forall a b, P a b -> Q a b) -> allp P l u -> allp Q l u.
Proof. intros H K. induction K; constructor; auto. Qed.
Lemma m_cut cut R p : vc_ff_cut cut R (flip3 p) = vc_ff_cut cut R p.
Proof. destruct p as [[x y] z]. unfold vc_ff_cut, flip3, mir; cbn [eqc flip]. eapply sg_lt; [apply sg_const|parw]. Qed.
Lemma far_radial G p : radial p (doublet_line_polar_pt G (vc_r p, snd p)).
Proof.
  intros [z ->]. rewrite axis_r. cbn [snd]. unfold doublet_line_polar_pt. cbn [fst].
  replace (nlt XN (nabs XN (Fin 0)) (nQ XN 1 100000000)) with true by (symmetry; apply Rltb_true; rewrite Rabs_R0; lra).
  replace (nlt XN (nQ XN 1 100000000) (nabs XN (Fin 0))) with false by (symmetry; apply Rltb_false; rewrite Rabs_R0; lra).
  destruct (nlt XN (nabs XN z) (nQ XN 1 100000000)), (nlt XN (nQ XN 1 100000000) z), (nlt XN z (nopp XN (nQ XN 1 100000000))); apply opp0.
Qed.
Lemma near_allp (P : pt -> XN * XN -> Prop) (f : list pt -> list (XN * XN)) m pts : (forall l, allp P l (f l)) -> allp P (gather m pts) (f (gather m pts)).
Proof. auto. Qed.
Lemma m_vcff PIb g R cut pts : 0 < R ->
  vc_tang_u_doublet_gen (N := XN) PIb g (Fin R) cut (map flip3 pts) = match vc_tang_u_doublet_gen (N := XN) PIb g (Fin R) cut pts with Ok us => Ok (map flip3 us) | Err e => Err e end.
Proof.
  intros HR. unfold vc_tang_u_doublet_gen, vc_tang_doublet_polar_gen.
  assert (EC : map (vc_ff_cut (N := XN) cut (Fin R)) (map flip3 pts) = map (vc_ff_cut (N := XN) cut (Fin R)) pts) by (rewrite map_map; apply map_ext; intros; apply m_cut).
  rewrite EC. set (bC := map (vc_ff_cut (N := XN) cut (Fin R)) pts). rewrite (gather_map flip3 (map negb bC) pts), m_tang_polar, m_rz.
  unfold doublet_line_polar_u. destruct (any_neg _); [reflexivity|]. cbn [Num.bind]. f_equal. rewrite (map_map flip3).
  apply (map2_allp radial); [intros; apply m_cart; assumption|]. apply allp_scatter.
  - rewrite (gather_map (fun p : pt => (vc_r p, snd p)) bC pts), map_map. apply allp_map. intros; apply far_radial.
  - apply allp_scatter; [apply tang_radial, HR|]. apply allp_map. intros p _. reflexivity.
Qed.
(** ** The doublets and the self-similar model *)
Lemma sg_mul0 b c x x' : sg c x x' -> sg b (nmul XN (nZ XN 0) x) (nmul XN (nZ XN 0) x').
Proof.
  unfold sg. intros ->. assert (E : nmul XN (nZ XN 0) (flip c x) = nmul XN (nZ XN 0) x).
  { destruct c; [|reflexivity]. destruct x; cbn; auto; try (f_equal; ring); unfold xinf_mul; (destruct (Rltb_spec 0 0); [lra|reflexivity]). }
  rewrite E. destruct b; [|reflexivity]. cbn [flip]. destruct x; cbn; auto; try (f_equal; ring); unfold xinf_mul; destruct (Rltb_spec 0 0); try lra; reflexivity.
Qed.
Lemma m_doublet_line g p : doublet_line_u g (nZ XN 0) (ninf XN) (flip3 p) = flip3 (doublet_line_u g (nZ XN 0) (ninf XN) p).
Proof.
  destruct p as [[X Y] Z]. unfold doublet_line_u, flip3, mir; cbn [eqc flip].
  change (neqb XN (ninf XN) (ninf XN)) with true. cbv iota beta.
  assert (HX : sg true X (nopp XN X)) by apply sg_opp1. set (X' := nopp XN X) in *. clearbody X'.
  assert (EA : nsqrt XN (nadd XN (nadd XN (sq X') (sq Y)) (sq Z)) = nsqrt XN (nadd XN (nadd XN (sq X) (sq Y)) (sq Z))) by (refine (sg_same _ _ _); parw).
  assert (EB : nmul XN (nZ XN 0) X' = nmul XN (nZ XN 0) X) by (refine (sg_same _ _ _); eapply sg_mul0; exact HX).
  assert (ED : nabs XN (nsub XN X' (nmul XN (nZ XN 0) Z)) = nabs XN (nsub XN X (nmul XN (nZ XN 0) Z))).
  { refine (sg_same _ _ _). eapply sg_abs. eapply sg_sub; [exact HX|]. eapply sg_mul0, sg_const. }
  rewrite EA, EB, ED. destruct (_ && _)%bool; [symmetry; rewrite opp0; reflexivity|].
  generalize (tI50 (nsqrt XN (nadd XN (nadd XN (sq X) (sq Y)) (sq Z))) (nadd XN (nmul XN (nZ XN 0) X) Z) (nsqrt XN (nadd XN (sq (nZ XN 0)) (nZ XN 1)))).
  generalize (tI51 (nsqrt XN (nadd XN (nadd XN (sq X) (sq Y)) (sq Z))) (nadd XN (nmul XN (nZ XN 0) X) Z) (nsqrt XN (nadd XN (sq (nZ XN 0)) (nZ XN 1)))).
  generalize (tI52 (nsqrt XN (nadd XN (nadd XN (sq X) (sq Y)) (sq Z))) (nadd XN (nmul XN (nZ XN 0) X) Z) (nsqrt XN (nadd XN (sq (nZ XN 0)) (nZ XN 1)))).
  intros a b c. f_equal. f_equal. apply sgT.
  assert (H1 : sg true (nmul XN (nZ XN 0) a) (nmul XN (nZ XN 0) a)) by (eapply sg_mul0, sg_const).
  assert (H2 : sg true (nmul XN (nZ XN 0) Z) (nmul XN (nZ XN 0) Z)) by (eapply sg_mul0, sg_const).
  eapply sg_b; [|eapply sg_mul; [apply sg_const|eapply sg_sub; [eapply sg_add; [|exact H1]|eapply sg_b; [|eapply sg_mul; [eapply sg_add; [exact H2|exact HX]|apply sg_const]]]]]; [reflexivity| |reflexivity]. parw.
Qed.
Lemma m_ss g R la et p : ss_u g R la et (flip3 p) = ss_u g R la et p.
Proof.
  destruct p as [[x y] z]. unfold ss_u, flip3, mir; cbn [eqc flip].
  assert (E : nsqrt XN (nadd XN (sq (nopp XN x)) (sq y)) = nsqrt XN (nadd XN (sq x) (sq y))) by (refine (sg_same _ _ _); parw). rewrite E. reflexivity.
Qed.
(** ** The skewed cylinder: the quadrature nodes are symmetric about the plane of the skew *)
Definition rho (th : XN) : XN := nsub XN (Fin (3 * PI)) th.
Definition tz (l : list (XN * XN)) : XN := trapz (map fst l) (map snd l).
Definition pan (a b : XN * XN) : XN := ndiv XN (nmul XN (nsub XN (snd b) (snd a)) (nadd XN (fst b) (fst a))) (nZ XN 2).
Lemma tz_cons a b l : tz (a :: b :: l) = nadd XN (pan a b) (tz (b :: l)).
Proof. reflexivity. Qed.
Lemma tz_snoc : forall l a b, tz (l ++ [a; b]) = nadd XN (tz (l ++ [a])) (pan a b).
Proof.
  induction l as [|c l IH]; intros a b; [apply xadd_comm|]. destruct l as [|d l].
  - cbn [app]. rewrite !tz_cons. change (tz [b]) with (nZ XN 0 : XN). change (tz [a]) with (nZ XN 0 : XN). rewrite !add_zero_r. reflexivity.
  - cbn [app] in *. rewrite !tz_cons, IH. symmetry. apply xadd_assoc.
Qed.
Lemma tz_rev (g : XN -> XN) : forall l : list R, tz (rev (map (fun t => (g (Fin t), rho (Fin t))) l)) = tz (map (fun t => (g (Fin t), Fin t)) l).
Proof.
  induction l as [|a l IH]; [reflexivity|]. destruct l as [|b l]; [reflexivity|]. cbn [map rev] in *. rewrite <- app_assoc. cbn [app]. rewrite tz_snoc, IH, tz_cons.
  transitivity (nadd XN (pan (g (Fin b), rho (Fin b)) (g (Fin a), rho (Fin a))) (tz ((g (Fin b), Fin b) :: map (fun t : R => (g (Fin t), Fin t)) l))); [apply xadd_comm|].
  f_equal. unfold pan. cbn [fst snd].
  assert (E1 : nsub XN (rho (Fin a)) (rho (Fin b)) = nsub XN (Fin b) (Fin a)) by (cbn; f_equal; ring).
  assert (E2 : nadd XN (g (Fin a)) (g (Fin b)) = nadd XN (g (Fin b)) (g (Fin a))) by apply xadd_comm. rewrite E1, E2. reflexivity.
Qed.
Lemma trapz_tz (f : XN -> XN) l : trapz (map f l) l = tz (map (fun t => (f t, t)) l).
Proof. unfold tz. rewrite !map_map. cbn [fst snd]. rewrite map_id. reflexivity. Qed.
Definition nodes (n : nat) : list R := match n with O => [] | S O => [PI / 2] | S k => map (fun i => PI / 2 + 2 * PI * INR i / INR k) (seq 0 n) end.
Lemma vtheta_nodes n : svc_vtheta (N := XN) n = map (fun t => Fin t) (nodes n).
Proof.
  unfold svc_vtheta, linspace, nodes. destruct n as [|[|k]]; [reflexivity| |].
  - cbn. destruct (Reqb_spec 2 0); [lra|]. cbn. rewrite Rplus_0_r. reflexivity.
  - rewrite !map_map. apply map_ext. intros i. cbn -[Z.of_nat INR]. rewrite <- !INR_IZR_INZ. destruct (Reqb_spec 2 0); [lra|].
    destruct (Reqb_spec (INR (S k)) 0) as [E|E]; [exfalso; apply (not_0_INR (S k)); [discriminate|exact E]|]. cbn -[INR]. f_equal. field. exact E.
Qed.
Lemma rev_seq k : rev (seq 0 (S k)) = map (fun i => (k - i)%nat) (seq 0 (S k)).
Proof.
  apply nth_ext with (d := 0%nat) (d' := (k - 0)%nat); [rewrite rev_length, map_length; reflexivity|]. intros i Hi. rewrite rev_length, seq_length in Hi.
  rewrite rev_nth by (rewrite seq_length; lia). rewrite (map_nth (fun i => (k - i)%nat)). rewrite seq_length, !seq_nth by lia. lia.
Qed.
Lemma nodes_sym n : n <> 1%nat -> nodes n = rev (map (fun t => 3 * PI - t) (nodes n)).
Proof.
  intros Hn. destruct n as [|[|k]]; [reflexivity|contradiction|]. unfold nodes. rewrite map_map, <- map_rev, rev_seq, map_map. apply map_ext_in.
  intros i Hi. apply in_seq in Hi. rewrite minus_INR by lia. assert (INR (S k) <> 0) by (apply not_0_INR; discriminate). field. assumption.
Qed.
Lemma sg_trapz b (f f' : XN -> XN) : (forall t, sg b (f (Fin t)) (f' (Fin t))) -> forall l : list R, sg b (tz (map (fun t => (f (Fin t), Fin t)) l)) (tz (map (fun t => (f' (Fin t), Fin t)) l)).
Proof.
  intros H. induction l as [|a [|c l] IH]; [apply sg_zero..|]. cbn [map] in *. rewrite !tz_cons. apply sg_add; [|exact IH]. unfold pan. cbn [fst snd].
  pose proof (H a). pose proof (H c). eapply sg_b; [|eapply sg_div; [eapply sg_mul; [apply sg_const|eapply sg_add; eassumption]|apply sg_const]]. destruct b; reflexivity.
Qed.
Lemma m_trap b n f f' : (forall t, sg b (f (Fin t)) (f' (rho (Fin t)))) -> sg b (svc_trap (N := XN) n f) (svc_trap n f').
Proof.
  intros H. unfold svc_trap. rewrite !trapz_tz, vtheta_nodes, !map_map.
  destruct (Nat.eq_dec n 1) as [->|Hn]; [apply sg_zero|].
  unfold sg. refine (eq_trans _ (sg_trapz b f (fun t => f' (rho t)) H (nodes n))). refine (eq_trans _ (tz_rev (fun t => f' (rho t)) (nodes n))).
  rewrite (nodes_sym n Hn) at 1. rewrite map_rev, map_map. reflexivity.
Qed.
(** the cosine of the angle between a node and the point *)
Definition mirrored_angle (psi psi' : XN) : Prop :=
  sg true (ncos XN psi) (ncos XN psi') /\ (forall t, sg false (ncos XN (nsub XN (Fin t) psi)) (ncos XN (nsub XN (rho (Fin t)) psi'))).
Lemma m_to_polar p : onaxis p \/ exists r psi psi' z, to_polar p = (r, psi, z) /\ to_polar (flip3 p) = (r, psi', z) /\ mirrored_angle psi psi'.
Proof.
  destruct p as [[x y] z]. destruct (atan2_mirror x y) as [[-> ->]|[HC HS]]; [left; exists z; reflexivity|]. right. unfold to_polar, flip3, mir; cbn [eqc flip].
  exists (nsqrt XN (nadd XN (sq x) (sq y))), (natan2 XN y x), (natan2 XN y (nopp XN x)), z. split; [reflexivity|]. split.
  - f_equal. f_equal. refine (sg_same _ _ _). parw.
  - split; [exact HC|]. intros t. destruct x as [x| | |], y as [y| | |]; try reflexivity. cbn in *. unfold sg in *. cbn [flip] in *.
    injection HC as HC. injection HS as HS. f_equal. replace (3 * PI - t) with (PI - t + 2 * INR 1 * PI) by (cbn; ring).
    rewrite !cos_minus, cos_period, sin_period, Rtrigo_facts.cos_pi_minus, Rtrigo_facts.sin_pi_minus, HC, HS. ring.
Qed.
Lemma rho_cos t : sg true (ncos XN (Fin t)) (ncos XN (rho (Fin t))).
Proof. unfold sg. cbn. f_equal. replace (3 * PI - t) with (PI - t + 2 * INR 1 * PI) by (cbn; ring). rewrite cos_period. apply Rtrigo_facts.cos_pi_minus. Qed.
Lemma rho_sin t : sg false (nsin XN (Fin t)) (nsin XN (rho (Fin t))).
Proof. unfold sg. cbn. f_equal. replace (3 * PI - t) with (PI - t + 2 * INR 1 * PI) by (cbn; ring). rewrite sin_period. apply Rtrigo_facts.sin_pi_minus. Qed.
Lemma sg_mulc s x x' k : sg s x x' -> sg s (nmul XN x k) (nmul XN x' k).
Proof. intros H. eapply sg_b; [|eapply sg_mul; [exact H|apply sg_const]]. destruct s; reflexivity. Qed.
Lemma sg_cmul s x x' k : sg s x x' -> sg s (nmul XN k x) (nmul XN k x').
Proof. intros H. eapply sg_b; [|eapply sg_mul; [apply sg_const|exact H]]. destruct s; reflexivity. Qed.
Lemma m_svc_int s g R m r psi psi' z (ai ai' bi bi' : XN -> XN) t :
  sg false (nmul XN (nmul XN (nmul XN (nZ XN 2) (Fin R)) r) (ncos XN (nsub XN (Fin t) psi))) (nmul XN (nmul XN (nmul XN (nZ XN 2) (Fin R)) r) (ncos XN (nsub XN (rho (Fin t)) psi'))) ->
  sg false (nmul XN (nmul XN (nmul XN (nZ XN 2) m) r) (ncos XN psi)) (nmul XN (nmul XN (nmul XN (nZ XN 2) (nopp XN m)) r) (ncos XN psi')) ->
  sg s (ai (Fin t)) (ai' (rho (Fin t))) -> sg s (bi (Fin t)) (bi' (rho (Fin t))) ->
  sg s (svc_int (N := XN) g (Fin R) m r psi z ai bi (Fin t)) (svc_int (N := XN) g (Fin R) (nopp XN m) r psi' z ai' bi' (rho (Fin t))).
Proof.
  intros H1 H2 H3 H4. unfold svc_int, svc_D, svc_c.
  assert (EA : svc_a (N := XN) (Fin R) r psi' z (rho (Fin t)) = svc_a (N := XN) (Fin R) r psi z (Fin t)) by (unfold svc_a; f_equal; exact H1).
  pose proof (rho_cos t) as HC.
  assert (EB : svc_b (N := XN) (Fin R) (nopp XN m) r psi' z (rho (Fin t)) = svc_b (N := XN) (Fin R) m r psi z (Fin t)).
  { unfold svc_b. f_equal. f_equal; [|exact H2]. apply sg_same. eapply sg_b; [|eapply sg_mul; [eapply sg_mul; [eapply sg_mul; [apply sg_const|apply sg_opp1]|apply sg_const]|exact HC]]. reflexivity. }
  assert (EM : sq (nopp XN m) = sq m) by (refine (sg_same _ _ _); parw). rewrite EA, EB, EM.
  apply sg_mulc, sg_add; apply sg_mulc; assumption.
Qed.
Lemma zero_r (R c : R) : nmul XN (nmul XN (nmul XN (nZ XN 2) (Fin R)) (Fin 0)) (Fin c) = Fin 0.
Proof. cbn. f_equal. ring. Qed.
Lemma m_svc_tang g R m n p : svc_tang_u (N := XN) g (Fin R) (nopp XN m) n false (flip3 p) = flip3 (svc_tang_u (N := XN) g (Fin R) m n false p).
Proof.
  unfold svc_tang_u. set (A := fun (psi psi' : XN) (r : XN) t => sg false (nmul XN (nmul XN (nmul XN (nZ XN 2) (Fin R)) r) (ncos XN (nsub XN (Fin t) psi))) (nmul XN (nmul XN (nmul XN (nZ XN 2) (Fin R)) r) (ncos XN (nsub XN (rho (Fin t)) psi')))).
  set (B := fun (psi psi' : XN) (r : XN) => sg false (nmul XN (nmul XN (nmul XN (nZ XN 2) m) r) (ncos XN psi)) (nmul XN (nmul XN (nmul XN (nZ XN 2) (nopp XN m)) r) (ncos XN psi'))).
  set (D := fun (psi psi' : XN) (r : XN) t => sg false (nmul XN r (ncos XN (nsub XN (Fin t) psi))) (nmul XN r (ncos XN (nsub XN (rho (Fin t)) psi')))).
  assert (HP : exists r psi psi' z, to_polar p = (r, psi, z) /\ to_polar (flip3 p) = (r, psi', z) /\ (forall t, A psi psi' r t) /\ B psi psi' r /\ (forall t, D psi psi' r t)).
  { destruct (m_to_polar p) as [[z ->]|(r & psi & psi' & z & E1 & E2 & HC & HT)].
    - exists (vc_r (N := XN) (Fin 0, Fin 0, z)), (Fin (Ratan2 0 0)), (Fin (Ratan2 0 0)), z. split; [reflexivity|]. split.
      + unfold flip3, mir; cbn [eqc flip]. change (nopp XN (Fin 0)) with (Fin (- 0) : XN). rewrite Ropp_0. reflexivity.
      + rewrite axis_r. split; [|split].
        * intros t. unfold A. change (ncos XN (nsub XN (Fin t) (Fin (Ratan2 0 0)))) with (Fin (cos (t - Ratan2 0 0))).
          change (ncos XN (nsub XN (rho (Fin t)) (Fin (Ratan2 0 0)))) with (Fin (cos (3 * PI - t - Ratan2 0 0))). unfold sg. rewrite !zero_r. reflexivity.
        * unfold B, sg. cbn [flip]. change (ncos XN (Fin (Ratan2 0 0))) with (Fin (cos (Ratan2 0 0))). destruct m as [m| | |]; try (cbn; f_equal; ring).
          all: cbn; repeat match goal with |- context [xinf_mul ?b ?x] => unfold xinf_mul; destruct (Rltb_spec 0 x); [|destruct (Rltb_spec x 0)]; try lra; cbn end; auto.
        * intros t. unfold D, sg. cbn. f_equal. ring.
    - exists r, psi, psi', z. split; [exact E1|]. split; [exact E2|]. split; [|split].
      + intros t. unfold A. eapply sg_b; [|eapply sg_mul; [apply sg_const|apply HT]]. reflexivity.
      + unfold B. eapply sg_b; [|eapply sg_mul; [eapply sg_mul; [eapply sg_mul; [apply sg_const|apply sg_opp1]|apply sg_const]|exact HC]]. reflexivity.
      + intros t. unfold D. eapply sg_b; [|eapply sg_mul; [apply sg_const|apply HT]]. reflexivity. }
  destruct HP as (r & psi & psi' & z & -> & -> & HA & HB & HD). unfold svc_tang_u_polar, flip3, mir; cbn [eqc flip].
  f_equal; [f_equal|].
  - apply sgT. apply m_trap. intros t. apply m_svc_int; [apply HA|exact HB|apply sg_cmul, rho_cos|apply sg_cmul, rho_cos].
  - apply sg_same. apply m_trap. intros t. apply m_svc_int; [apply HA|exact HB|apply sg_cmul, rho_sin|apply sg_cmul, rho_sin].
  - apply sg_same. apply m_trap. intros t. apply m_svc_int; [apply HA|exact HB| |].
    + apply sg_cmul, sg_sub; [apply sg_const|apply HD].
    + eapply sg_b; [|eapply sg_mul; [apply (sg_cmul true), sg_opp1|apply rho_cos]]. reflexivity.
Qed.
(** ** Superpositions *)
Lemma pt_eq (a a' b b' c c' : XN) : a = a' -> b = b' -> c = c' -> (a, b, c) = (a', b', c').
Proof. intros -> -> ->. reflexivity. Qed.
Lemma sg_oo (x : XN) : sg false x (nopp XN (nopp XN x)).
Proof. unfold sg. apply oppX_invol. Qed.
#[export] Hint Resolve sg_oo : parity.
Ltac mm := cbn [eqc flip xorb]; apply pt_eq; first [apply sgT; parw | apply sg_same; parw].
Lemma m_vadd i a b : vadd (mir i a) (mir i b) = mir i (vadd a b).
Proof. destruct a as [[a1 a2] a3], b as [[b1 b2] b3]. unfold vadd, mir. destruct i; mm. Qed.
Lemma m_fadd a b : fadd (map flip3 a) (map flip3 b) = map flip3 (fadd a b).
Proof. apply map2_map_lr. intros. apply m_vadd. Qed.
Lemma mir_zero i : mir i (nZ XN 0, nZ XN 0, nZ XN 0) = (nZ XN 0, nZ XN 0, nZ XN 0).
Proof. destruct i; unfold mir; cbn [eqc flip]; rewrite opp0; reflexivity. Qed.
Lemma m_fzero (pts : list pt) (k : pt -> pt) : fzero (map k pts) = map flip3 (fzero (N := XN) pts).
Proof. unfold fzero. rewrite !map_map. apply map_ext. intros _. symmetry. apply mir_zero. Qed.
Lemma m_shift c p : shift (flip3 c) (flip3 p) = flip3 (shift c p).
Proof. destruct c as [[a1 a2] a3], p as [[b1 b2] b3]. unfold shift, flip3, mir. mm. Qed.
Lemma m_ylist gr c pts : ylist gr (flip3 c) (map flip3 pts) = map (map flip3) (ylist gr c pts).
Proof.
  unfold ylist. rewrite (map_com (shift c) (shift (flip3 c)) flip3 flip3) by (intros; apply m_shift).
  destruct gr; [|reflexivity]. cbn [map]. f_equal. f_equal. rewrite map_map, (map_map _ flip3). apply map_ext. intros p.
  destruct c as [[c1 c2] c3]. destruct p as [[x y] z]. unfold mirror_pt, flip3, mir. reflexivity.
Qed.
Definition radii_pos (rs : list XN) : Prop := Forall (fun r => exists x, r = Fin x /\ 0 < x) rs.
Lemma m_vcs_tang PIb e gr c gs rs pts : radii_pos rs ->
  vcs_tang_u_gen PIb e gr [(flip3 c, map2 pair gs rs)] (map flip3 pts) = map flip3 (vcs_tang_u_gen PIb e gr [(c, map2 pair gs rs)] pts).
Proof.
  intros HR. unfold vcs_tang_u_gen. rewrite (m_fzero pts flip3). cbn [fold_left fst snd]. rewrite m_ylist. apply fold_relm. intros u' Y.
  assert (HG : Forall (fun gr => exists x, snd gr = Fin x /\ 0 < x) (map2 (@pair XN XN) gs rs)).
  { clear -HR. revert gs. induction HR as [|r rs H HR IH]; intros [|g gs]; constructor; auto. }
  revert u'. generalize dependent (map2 (@pair XN XN) gs rs). intros L HL. induction HL as [|[g r] L (x & Er & Hx) HL IH]; intros u'; [reflexivity|].
  cbn [fst snd] in *. subst r. cbn [fold_left fst snd]. rewrite <- IH. f_equal. destruct (nlt XN (nZ XN 0) (nabs XN g)); [|reflexivity]. rewrite m_tang by exact Hx. apply m_fadd.
Qed.
Lemma m_svcs_tang n gr c m gs rs pts : radii_pos rs ->
  svcs_tang_u n gr [(flip3 c, map2 (fun g r => (g, r, nopp XN m)) gs rs)] (map flip3 pts) = map flip3 (svcs_tang_u n gr [(c, map2 (fun g r => (g, r, m)) gs rs)] pts).
Proof.
  intros HR. unfold svcs_tang_u. rewrite (m_fzero pts flip3). cbn [fold_left fst snd]. rewrite m_ylist. apply fold_relm. intros u' Y.
  revert gs u'. induction HR as [|r rs (x & -> & Hx) HR IH]; intros [|g gs] u'; [reflexivity..|]. cbn [map2 fold_left]. rewrite <- IH. f_equal.
  destruct (nlt XN (nZ XN 0) (nabs XN g)); [|reflexivity].
  rewrite (map_com (svc_tang_u (N := XN) g (Fin x) m n false) _ flip3 flip3) by (intros; apply m_svc_tang). apply m_fadd.
Qed.
(** ** Geometry *)
Lemma m_transform_T i M p : transform_T (mirM i cX M) (mir i p) = flip3 (transform_T M p).
Proof. destruct M as [[[[a b] c] [[d e] f]] [[g h] j]], p as [[x y] z]. unfold transform_T, mirM, flip3, mir. destruct i; mm. Qed.
Lemma m_transform i M p : transform (mirM i cX M) (flip3 p) = mir i (transform M p).
Proof. destruct M as [[[[a b] c] [[d e] f]] [[g h] j]], p as [[x y] z]. unfold transform, mirM, flip3, mir. destruct i; mm. Qed.
Lemma m_Tc2g i t : T_c2g (mirrored i t) = mirM i cX (T_c2g t).
Proof.
  unfold T_c2g. cbn [mirrored t_Twt2g t_Tc2wt]. destruct (t_Twt2g t) as [[[[a b] c] [[d e] f]] [[g h] j]], (t_Tc2wt t) as [[[[a' b'] c'] [[d' e'] f']] [[g' h'] j']].
  unfold mmul, mtr, mirM, dot. destruct i; cbn [eqc flip xorb]; (apply (f_equal2 pair); [apply (f_equal2 pair)|]; apply pt_eq; first [apply sgT; parw | apply sg_same; parw]).
Qed.
Lemma m_tube R p : in_wake_tube R (flip3 p) = in_wake_tube R p.
Proof. destruct p as [[x y] z]. unfold in_wake_tube, flip3, mir. f_equal. cbn [eqc flip]. eapply sg_lt; [parw|apply sg_const]. Qed.
Lemma m_norm i u : norm (mir i u) = norm u.
Proof. destruct u as [[x y] z]. unfold norm, mir. destruct i; cbn [eqc flip]; apply sg_same; parw. Qed.
(** ** The skew angle *)
(** the skew angle is prescribed, or the wind blows from one side of the unyawed rotor, or straight onto it (with the wind exactly from behind
    the code measures the angle pi on both sides) *)
Definition sided (t : turbine XN) : Prop :=
  t_chi t <> None \/ neqb XN (dot (cross (t_horz t) (t_U0 t)) (t_vert t)) (nZ XN 0) = false \/ yaw_wind t = Fin 0.
Lemma m_dot i a b : dot (mir i a) (mir i b) = dot a b.
Proof. destruct a as [[a1 a2] a3], b as [[b1 b2] b3]. unfold dot, mir. destruct i; cbn [eqc flip]; apply sg_same; parw. Qed.
Definition neg3 (p : pt) : pt := let '(x, y, z) := p in (nopp XN x, nopp XN y, nopp XN z).
(** the cross product is an axial vector *)
Lemma m_cross i a b : cross (mir i a) (mir i b) = mir i (neg3 (cross a b)).
Proof.
  destruct a as [[a1 a2] a3], b as [[b1 b2] b3]. unfold cross, mir, neg3. destruct i; cbn [eqc flip]; rewrite ?oppX_invol;
  apply pt_eq; first [apply sgT; parw | apply sg_same; parw].
Qed.
Lemma m_triple i a b c : dot (cross (mir i a) (mir i b)) (mir i c) = nopp XN (dot (cross a b) c).
Proof.
  rewrite m_cross, m_dot. destruct (cross a b) as [[x y] z], c as [[c1 c2] c3]. unfold dot, neg3. apply sgT. parw.
Qed.
Lemma m_vscale i k a : vscale k (mir i a) = mir i (vscale k a).
Proof. destruct a as [[a1 a2] a3]. unfold vscale, mir. destruct i; mm. Qed.
Lemma m_vdivs i k a : vdivs (mir i a) k = mir i (vdivs a k).
Proof. destruct a as [[a1 a2] a3]. unfold vdivs, mir. destruct i; mm. Qed.
Lemma m_vsub i a b : vsub (mir i a) (mir i b) = mir i (vsub a b).
Proof. destruct a as [[a1 a2] a3], b as [[b1 b2] b3]. unfold vsub, mir. destruct i; mm. Qed.
Lemma nsign0 (x : XN) : neqb XN (nsign XN x) (nZ XN 0) = neqb XN x (nZ XN 0).
Proof.
  destruct x; cbn; auto; try (apply Reqb_false; lra). unfold Rsgn. destruct (Rlt_dec 0 r), (Rlt_dec r 0), (Reqb_spec r 0); try lra;
  try (apply Reqb_true; lra); try (apply Reqb_false; lra).
Qed.
Lemma m_yaw_wind i t : neqb XN (dot (cross (t_horz t) (t_U0 t)) (t_vert t)) (nZ XN 0) = false \/ yaw_wind t = Fin 0 -> yaw_wind (mirrored i t) = nopp XN (yaw_wind t).
Proof.
  unfold yaw_wind. cbn [mirrored t_U0 t_vert t_horz]. rewrite m_dot, m_vscale, m_vsub, m_norm, m_vdivs, m_dot, m_triple.
  set (s := dot (cross (t_horz t) (t_U0 t)) (t_vert t)). set (ac := nacos XN _). clearbody s ac. rewrite !nsign0.
  assert (E : neqb XN (nopp XN s) (nZ XN 0) = neqb XN s (nZ XN 0)) by (apply (sg_eqb0 true); apply sg_opp1). rewrite E. clear E.
  destruct (neqb XN s (nZ XN 0)); intros [H|H]; try discriminate.
  - rewrite H. cbn. f_equal. ring.
  - apply sgT. parw.
  - apply sgT. parw.
Qed.
Lemma m_evert i M v : snd (fst (mvec (mtr (mirM i cX M)) (mir i v))) = snd (fst (mvec (mtr M) v)).
Proof. destruct M as [[[[a b] c] [[d e] f]] [[g h] j]], v as [[x y] z]. unfold mvec, mtr, mirM, mir, dot. destruct i; cbn [eqc flip xorb fst snd]; apply sg_same; parw. Qed.
Lemma m_chi i t : sided t -> chi_now (mirrored i t) = nopp XN (chi_now t).
Proof.
  intros HS. unfold chi_now. change (t_chi (mirrored i t)) with (option_map (nopp XN) (t_chi t)). unfold sided in HS. destruct (t_chi t) as [c|]; [reflexivity|]. cbn [option_map]. unfold chi_fresh.
  rewrite m_Tc2g, m_yaw_wind by tauto. change (t_vert (mirrored i t)) with (mir i (t_vert t)). change (t_yaw (mirrored i t)) with (nopp XN (t_yaw t)).
  rewrite m_evert. apply sgT. parw.
Qed.
Lemma m_skewed (c : XN) : skewed (nopp XN c) = skewed c.
Proof. unfold skewed. eapply sg_lt; [apply sg_const|parw]. Qed.
Lemma m_tan (c : XN) : ntan XN (nopp XN c) = nopp XN (ntan XN c).
Proof. apply sgT. parw. Qed.
(** ** The query *)
Definition mirrored_result (i : coord) (r : result (list pt)) : result (list pt) := match r with Ok us => Ok (map (mir i) us) | Err e => Err e end.
(** the radius of the rotor and of its cylinders are positive numbers *)
Definition sized (t : turbine XN) : Prop :=
  (exists x, t_R t = Fin x /\ 0 < x) /\ match t_r t with Some rs => radii_pos rs | None => True end.
Lemma m_cu_tang1 i t o M chi g Y : sized t ->
  cu_tang1 (mirrored i t) o M (nopp XN chi) g (map flip3 Y) = mirrored_result cX (cu_tang1 t o M chi g Y).
Proof.
  intros [(R & ER & HR) _]. unfold cu_tang1. cbn [mirrored t_R]. rewrite ER, m_skewed, m_tan. destruct (skewed chi).
  - destruct (String.eqb M "VC"); [|reflexivity]. cbn [mirrored_result]. f_equal. apply map_com. intros; apply m_svc_tang.
  - destruct (String.eqb M "VC").
    + cbn [mirrored_result]. f_equal. apply m_tang, HR.
    + destruct (String.eqb M "VCFF"); [apply m_vcff, HR|]. destruct (String.eqb M "VD").
      * cbn [mirrored_result]. f_equal. apply map_com. intros; apply m_doublet_line.
      * destruct (String.eqb M "SS"); [|reflexivity]. cbn [mirrored_result]. f_equal. apply map_com. intros p. rewrite m_ss. unfold flip3, mir; cbn [eqc flip].
        apply pt_eq; try reflexivity. set (u := ss_u _ _ _ _ _). clearbody u. destruct u; cbn; auto; try (f_equal; ring); unfold xinf_mul; destruct (Rltb_spec 0 0); try lra; reflexivity.
Qed.
(** the swirl is left out: no root vortex and no longitudinal vorticity *)
Definition swirl_free (t : turbine XN) (o : opts XN) : Prop := o_root o = false /\ o_longi o = false.
Lemma m_cu_single i t o M chi g Ylist u : sized t -> swirl_free t o ->
  cu_single (mirrored i t) o M (nopp XN chi) g (map (map flip3) Ylist) (map flip3 u) = mirrored_result cX (cu_single t o M chi g Ylist u).
Proof.
  intros HS [_ HL]. unfold cu_single. change (Ok (map flip3 u)) with (mirrored_result cX (Ok u)). apply fold_relm.
  intros [us|e] Y; [|reflexivity]. cbn [mirrored_result Num.bind]. unfold gl_active1. rewrite HL. cbn [negb Num.bind]. rewrite m_cu_tang1 by exact HS.
  destruct (o_tang o && negb (neqb XN g (nZ XN 0)))%bool; [|reflexivity].
  destruct (cu_tang1 t o M chi g Y) as [w|e]; cbn [mirrored_result Num.bind]; [|reflexivity]. f_equal. apply m_fadd.
Qed.
Lemma m_cu_multi i t o M chi gs ground cyl pts u : sized t -> swirl_free t o ->
  cu_multi (mirrored i t) o M (nopp XN chi) gs ground (flip3 cyl) (map flip3 pts) (map flip3 u) = mirrored_result cX (cu_multi t o M chi gs ground cyl pts u).
Proof.
  intros [_ HR] [_ HL]. unfold cu_multi. cbn [mirrored t_r t_gl]. rewrite HL, m_skewed, m_tan. destruct (String.eqb M "VC"); [|reflexivity]. destruct (t_r t) as [r|]; [|reflexivity].
  destruct (t_gl t) as [gl|]; [|reflexivity]. destruct (negb (Nat.eqb (len gs) (len r))); [reflexivity|].
  destruct (match gl with Some gl => negb (Nat.eqb (len gl) (len r)) | None => false end); [reflexivity|]. cbn [mirrored_result]. f_equal.
  destruct (o_tang o); [|reflexivity]. change (map flip3 u) with (map flip3 u). change (map (mir cX)) with (map flip3). rewrite <- m_fadd. f_equal. destruct (skewed chi).
  - apply m_svcs_tang, HR.
  - apply m_vcs_tang, HR.
Qed.
Lemma m_compute i t o pts : sized t -> sided t -> swirl_free t o ->
  compute_u (mirrored i t) o (map (mir i) pts) = (mirrored i (fst (compute_u t o pts)), mirrored_result i (snd (compute_u t o pts))).
Proof.
  intros HZ HS HF. unfold compute_u. rewrite m_chi by exact HS. cbn [fst snd]. f_equal.
  rewrite m_Tc2g. cbn [mirrored t_gt t_rhub t_ground t_model t_R t_U0]. fold (mirrored i t). destruct (t_gt t) as [gs|]; [|reflexivity].
  rewrite (map_com (transform_T (T_c2g t)) (transform_T (mirM i cX (T_c2g t))) (mir i) flip3) by (intros; apply m_transform_T).
  rewrite m_transform_T, m_ylist. rewrite (m_fzero pts (mir i)).
  set (ptc := map (transform_T (T_c2g t)) pts). set (cyl := transform_T (T_c2g t) (t_rhub t)).
  set (ground := match o_ground o with Some g => g | None => t_ground t end). set (M := match o_Model o with Some m => m | None => t_model t end).
  assert (ER : forall t' c Yl u, cu_root t' o c Yl u = Ok u) by (intros; unfold cu_root; rewrite (proj1 HF); reflexivity). rewrite !ER. cbn [Num.bind].
  replace (match gs with [g] => cu_single (mirrored i t) o M (nopp XN (chi_now t)) g (map (map flip3) (ylist ground cyl ptc)) (map flip3 (fzero pts))
           | _ => cu_multi (mirrored i t) o M (nopp XN (chi_now t)) gs ground (flip3 cyl) (map flip3 ptc) (map flip3 (fzero pts)) end)
    with (mirrored_result cX (match gs with [g] => cu_single t o M (chi_now t) g (ylist ground cyl ptc) (fzero pts) | _ => cu_multi t o M (chi_now t) gs ground cyl ptc (fzero pts) end)).
  2:{ destruct gs as [|g [|g' gs]]; [rewrite <- (m_cu_multi i); auto|rewrite <- (m_cu_single i); auto|rewrite <- (m_cu_multi i); auto]. }
  destruct (match gs with [g] => cu_single t o M (chi_now t) g (ylist ground cyl ptc) (fzero pts) | _ => cu_multi t o M (chi_now t) gs ground cyl ptc (fzero pts) end) as [w|e]; cbn [mirrored_result Num.bind]; [|reflexivity].
  f_equal. rewrite (map_com (shift cyl) (shift (flip3 cyl)) flip3 flip3) by (intros; apply m_shift). set (p0 := map (shift cyl) ptc). change (map (mir cX) w) with (map flip3 w).
  rewrite (map2_map_lr _ (fun p v0 => if in_wake_tube (t_R t) p then (nZ XN 0, nZ XN 0, nZ XN 0) else v0) flip3 flip3 flip3).
  2:{ intros a b. rewrite m_tube. destruct (in_wake_tube (t_R t) a); [symmetry; apply mir_zero|reflexivity]. }
  set (w2 := if o_no_wake o then map2 _ p0 w else w).
  replace (if o_no_wake o then map flip3 (map2 (fun p v0 => if in_wake_tube (t_R t) p then (nZ XN 0, nZ XN 0, nZ XN 0) else v0) p0 w) else map flip3 w) with (map flip3 w2)
    by (unfold w2; destruct (o_no_wake o); reflexivity).
  rewrite (map_com (transform (T_c2g t)) (transform (mirM i cX (T_c2g t))) flip3 (mir i)) by (intros; apply m_transform).
  destruct (o_only_ind o); [reflexivity|]. apply map_com. intros; apply m_vadd.
Qed.
(** ** C148 *)
(** what is asked of the turbine in the mirror is the mirror image of what is asked of the turbine *)
Theorem C148_query : forall (i : coord) (t : turbine XN) (o : opts XN) (pts : list pt), sized t -> sided t -> swirl_free t o ->
  compute_u (mirrored i t) o (map (mir i) pts) = (mirrored i (fst (compute_u t o pts)), mirrored_result i (snd (compute_u t o pts))).
Proof. exact m_compute. Qed.
(** the reflection is its own inverse *)
Lemma mir_mir i p : mir i (mir i p) = p.
Proof. destruct p as [[x y] z]. destruct i; unfold mir; cbn [eqc flip]; rewrite oppX_invol; reflexivity. Qed.
Lemma m_rotmat i u th : RotMat_AxisAngle (mir i u) (nopp XN th) = mirM i i (RotMat_AxisAngle u th).
Proof.
  destruct u as [[x y] z]. unfold RotMat_AxisAngle, mirM, mir.
  assert (EC : ncos XN (nopp XN th) = ncos XN th) by (apply sg_same; parw). assert (ES : sg true (nsin XN th) (nsin XN (nopp XN th))) by parw. rewrite EC.
  set (c := ncos XN th). set (s := nsin XN th) in *. set (s' := nsin XN (nopp XN th)) in *. clearbody c s s'.
  destruct i; cbn [eqc flip xorb]; (apply (f_equal2 pair); [apply (f_equal2 pair)|]; apply pt_eq; first [apply sgT; parw | apply sg_same; parw]).
Qed.
Lemma m_mvec i M v : mvec (mirM i i M) (mir i v) = mir i (mvec M v).
Proof. destruct M as [[[[a b] c] [[d e] f]] [[g h] j]], v as [[x y] z]. unfold mvec, mirM, mir, dot. destruct i; mm. Qed.
Lemma m_mcols_Y i a b c : mcols (mir i a) (mir i (neg3 b)) (mir i c) = mirM i cY (mcols a b c).
Proof.
  destruct a as [[a1 a2] a3], b as [[b1 b2] b3], c as [[c1 c2] c3]. unfold mcols, mtr, mirM, mir, neg3.
  destruct i; cbn [eqc flip xorb]; rewrite ?oppX_invol; reflexivity.
Qed.
Lemma m_mcols_X i a b c : mcols (mir i (neg3 a)) (mir i b) (mir i c) = mirM i cX (mcols a b c).
Proof.
  destruct a as [[a1 a2] a3], b as [[b1 b2] b3], c as [[c1 c2] c3]. unfold mcols, mtr, mirM, mir, neg3.
  destruct i; cbn [eqc flip xorb]; rewrite ?oppX_invol; reflexivity.
Qed.
Theorem C148_moved : forall (i : coord) (t : turbine XN) yaw p U0 chi,
  update_yaw_pos (mirrored i t) (nopp XN yaw) = mirrored i (update_yaw_pos t yaw) /\
  update_position (mirrored i t) (mir i p) = mirrored i (update_position t p) /\
  update_wind (mirrored i t) (mir i U0) = mirrored i (update_wind t U0) /\
  set_chi (mirrored i t) (nopp XN chi) = mirrored i (set_chi t chi).
Proof.
  intros i t yaw p U0 chi. split; [|repeat split; reflexivity]. unfold update_yaw_pos, set_yawf. cbn [mirrored t_vert t_shaft0].
  rewrite m_rotmat, m_mvec. reflexivity.
Qed.
(** the constructor, for a shaft at right angles to the vertical (the code's horizontal direction is a function of the components otherwise: C23) *)
Theorem C148_built : forall (i : coord) R hub shaft vert U0 Ct Lambda name ground model, dot (N := XN) shaft vert = Fin 0 ->
  new_turbine (N := XN) R (mir i hub) (mir i shaft) (mir i vert) (mir i U0) Ct Lambda name ground model =
  mirrored i (new_turbine R hub shaft vert U0 Ct Lambda name ground model).
Proof.
  intros i R hub shaft vert U0 Ct La name gr mo HD. unfold new_turbine. set (t0 := mkT R hub _ _ _ _ _ _ _ _ _ _ _ _ _ _ _ _ _ _ _).
  rewrite <- (proj1 (C148_moved i t0 (nZ XN 0) hub U0 (nZ XN 0))). rewrite opp0. unfold update_yaw_pos, set_yawf, t0. cbn [mirrored t_R t_rhub t_shaft t_shaft0 t_vert t_horz t_TF2g t_Tc2wt t_yaw t_U0 t_r t_gt t_gl t_Gr t_Lambda t_ground t_chi t_model t_Ct t_name option_map].
  assert (EH : horz_of (mir i shaft) (mir i vert) = mir i (horz_of shaft vert)).
  { unfold horz_of. rewrite m_dot, HD. assert (EV : forall p, vsubs p (Fin 0 : XN) = p) by (intros [[x y] z]; unfold vsubs; rewrite !(sub_zero_r : forall x, nsub XN x (Fin 0) = x); reflexivity).
    rewrite !EV, m_norm, m_vdivs. reflexivity. }
  rewrite EH, !m_cross, m_mcols_Y, m_mcols_X. reflexivity.
Qed.
Theorem C148_loaded : forall (i : coord) minim r Ct Gamma Lambda nCyl f (t : turbine XN),
  update_loading minim r Ct Gamma Lambda nCyl f (mirrored i t) =
    (mirrored i (fst (update_loading minim r Ct Gamma Lambda nCyl f t)), snd (update_loading minim r Ct Gamma Lambda nCyl f t)).
Proof.
  intros i minim r Ct Ga La n f t. unfold update_loading. change (t_U0 (mirrored i t)) with (mir i (t_U0 t)). rewrite m_norm.
  change (t_R (mirrored i t)) with (t_R t). change (t_Lambda (mirrored i t)) with (t_Lambda t).
  unfold mbind, mlift, massign, mraise. destruct (load_interp (t_R t) r Ct Ga n) as [[[r' c'] g']|e]; [|reflexivity].
  destruct (match La with Some l => Some l | None => t_Lambda t end) as [L|]; [|reflexivity].
  destruct f as [f|], c' as [c|]; [destruct (f c); reflexivity|reflexivity| |].
  - destruct (let* rr := need r' in _) as [w|e]; reflexivity.
  - destruct g' as [g|]; [|reflexivity]. destruct (let* rr := need r' in _) as [w|e]; reflexivity.
Qed.
(** a turbine in the plane of the mirror: yawed to one side and to the other *)
Theorem C148_yawed : forall (i : coord) R hub shaft vert U0 Ct0 Lambda0 name ground model minim r Ct Gamma Lambda nCyl f yaw o pts,
  mir i hub = hub -> mir i shaft = shaft -> mir i vert = vert -> mir i U0 = U0 -> dot (N := XN) shaft vert = Fin 0 ->
  let T (y : XN) := fst (update_loading minim r Ct Gamma Lambda nCyl f (update_yaw_pos (new_turbine (N := XN) R hub shaft vert U0 Ct0 Lambda0 name ground model) y)) in
  sized (T yaw) -> yaw_wind (T yaw) = Fin 0 -> swirl_free (T yaw) o ->
  snd (compute_u (T (nopp XN yaw)) o (map (mir i) pts)) = mirrored_result i (snd (compute_u (T yaw) o pts)).
Proof.
  intros i R hub shaft vert U0 Ct0 La0 name gr mo minim r Ct Ga La n f yaw o pts H1 H2 H3 H4 HD T HZ HY HF.
  assert (ET : T (nopp XN yaw) = mirrored i (T yaw)).
  { unfold T. pose proof (C148_built i R hub shaft vert U0 Ct0 La0 name gr mo HD) as E. rewrite H1, H2, H3, H4 in E. rewrite E at 1.
    rewrite (proj1 (C148_moved i _ yaw hub U0 (nZ XN 0))), C148_loaded. reflexivity. }
  rewrite ET. rewrite C148_query; [reflexivity|exact HZ|right; right; exact HY|exact HF].
Qed.
(** ** The farm *)
Definition obj_mir (i : coord) (x : @obj XN) : @obj XN := match x with OWT t => OWT (mirrored i t) | OOther => OOther end.
Definition farm_ready (h : heap XN) (f : farm) (o : opts XN) : Prop := forall k t, In k f -> nth_error h k = Some (OWT t) -> sized t /\ sided t /\ swirl_free t o.
Lemma upd_map' {A B} (g : A -> B) : forall h k a, upd (map g h) k (g a) = map g (upd h k a).
Proof. induction h as [|x h IH]; intros [|k] a; cbn; auto. f_equal. apply IH. Qed.
Lemma nth_upd' {A} : forall (h : list A) k j a b, nth_error (upd h k a) j = Some b -> nth_error h j = Some b \/ (k = j /\ b = a).
Proof. induction h as [|x h IH]; intros [|k] [|j] a b H; cbn in *; auto; try discriminate; [inversion H; auto|]. destruct (IH k j a b H) as [|[-> ->]]; auto. Qed.
Lemma query_ready t o o' pts : sized t /\ sided t /\ swirl_free t o' -> sized (fst (compute_u t o pts)) /\ sided (fst (compute_u t o pts)) /\ swirl_free (fst (compute_u t o pts)) o'.
Proof. intros (H1 & H2 & H3). split; [exact H1|]. split; [|exact H3]. left. discriminate. Qed.
Lemma farm_mir i o pts : forall f h u, farm_ready h f (farm_opts o) ->
  farm_loop (map (obj_mir i) h) f o (map (mir i) pts) (map (mir i) u) = (map (obj_mir i) (fst (farm_loop h f o pts u)), mirrored_result i (snd (farm_loop h f o pts u))).
Proof.
  induction f as [|k f IH]; intros h u HA; [reflexivity|]. cbn [farm_loop]. rewrite nth_error_map.
  destruct (nth_error h k) as [[t|]|] eqn:E; [|reflexivity..]. cbn [option_map obj_mir].
  pose proof (HA k t (or_introl eq_refl) E) as A1. rewrite (C148_query i t (farm_opts o) pts) by tauto.
  pose proof (query_ready t (farm_opts o) (farm_opts o) pts A1) as HQ.
  destruct (compute_u t (farm_opts o) pts) as [t' [us|e]]; cbn [fst snd mirrored_result] in *.
  - change (OWT (mirrored i t')) with (obj_mir i (OWT t')). rewrite upd_map'. rewrite <- IH.
    + f_equal. apply map2_map_lr. intros; apply m_vadd.
    + intros j s Hj Es. apply nth_upd' in Es. destruct Es as [Es|[-> Es]]; [apply (HA j s); [right; exact Hj|exact Es]|]. inversion Es; subst s. exact HQ.
  - change (OWT (mirrored i t')) with (obj_mir i (OWT t')). rewrite upd_map'. reflexivity.
Qed.
Theorem C148_farm : forall (i : coord) (h : heap XN) (f : farm) (o : opts XN) U0 pts, farm_ready h f (farm_opts o) ->
  velocity_field (map (obj_mir i) h) f o (option_map (mir i) U0) (map (mir i) pts) =
    (map (obj_mir i) (fst (velocity_field h f o U0 pts)), mirrored_result i (snd (velocity_field h f o U0 pts))).
Proof.
  intros i h f o U0 pts HA. unfold velocity_field.
  replace (fzero (map (mir i) pts)) with (map (mir i) (fzero (N := XN) pts)) by (unfold fzero; rewrite !map_map; apply map_ext; intros; apply mir_zero).
  rewrite farm_mir by assumption. destruct (farm_loop h f o pts (fzero pts)) as [h' [u|e]]; cbn [fst snd Num.bind mirrored_result]; [|reflexivity]. f_equal. f_equal.
  destruct U0 as [U|]; cbn [option_map]; [|reflexivity]. apply map_com. intros a. apply m_vadd.
Qed.
(** ** The swirl *)
(** off the axis, the root vortex of the same sign turns the other way in the mirror: its velocities are the opposite of the mirror image *)
Theorem C148_swirl : forall G p, ~ onaxis p -> vl_semiinf_straight_u G false (flip3 p) = neg3 (flip3 (vl_semiinf_straight_u (N := XN) G false p)).
Proof.
  intros G [[x y] z] HP. unfold vl_semiinf_straight_u, vl_semiinf_straight_u_polar, vl_straight_cart_of_polar, flip3, mir, neg3. cbn [eqc flip].
  destruct (atan2_mirror x y) as [[-> ->]|[HC HS]]; [exfalso; apply HP; exists z; reflexivity|].
  assert (ER : nadd XN (sq (nopp XN x)) (sq y) = nadd XN (sq x) (sq y)) by (apply sg_same; parw). rewrite ER, (sg_same _ _ HS). 
  set (r := nsqrt XN (nadd XN (sq x) (sq y))). clearbody r. destruct (neqb XN G (nZ XN 0)).
  - assert (E0 : nopp XN (nmul XN r (nZ XN 0)) = nmul XN r (nZ XN 0)).
    { destruct r; cbn; auto; try (f_equal; ring); unfold xinf_mul; destruct (Rltb_spec 0 0); try lra; reflexivity. }
    rewrite !E0. reflexivity.
  - rewrite oppX_invol, opp0. apply pt_eq; [|apply sgT; eapply sg_b; [|eapply sg_mul; [exact HC|apply sg_const]]; reflexivity|reflexivity]. reflexivity.
Qed.
(** ** Example: a rotor facing the wind along x, with z upwards, yawed by [a] and by [- a]; the mirror is the plane y = 0 *)
Definition ex_mirror (a : R) : turbine XN :=
  set_gt (update_yaw_pos (new_turbine (N := XN) (Fin 2) (Fin 1, Fin 0, Fin 80) (Fin 1, Fin 0, Fin 0) (Fin 0, Fin 0, Fin 1) (Fin 8, Fin 0, Fin 0) None None "" true "VC") (Fin a)) (Some [Fin (-1)]).
Lemma ex_norm u : 0 < u -> norm (N := XN) (Fin u, Fin 0, Fin 0) = Fin u.
Proof. intros H. cbn. destruct (Rltb_spec (u * u + 0 * 0 + 0 * 0) 0); [nra|]. f_equal. replace (u * u + 0 * 0 + 0 * 0) with (u * u) by ring. apply sqrt_square. lra. Qed.
Lemma ex_divs u : 0 < u -> vdivs (N := XN) (Fin u, Fin 0, Fin 0) (Fin u) = (Fin 1, Fin 0, Fin 0).
Proof. intros H. cbn. destruct (Reqb_spec u 0); [lra|]. apply pt_eq; f_equal; field; lra. Qed.
Lemma ex_wind (t : turbine XN) : t_horz t = horz_of (N := XN) (Fin 1, Fin 0, Fin 0) (Fin 0, Fin 0, Fin 1) -> t_U0 t = (Fin 8, Fin 0, Fin 0) -> t_vert t = (Fin 0, Fin 0, Fin 1) -> yaw_wind (N := XN) t = Fin 0.
Proof.
  assert (EH : horz_of (N := XN) (Fin 1, Fin 0, Fin 0) (Fin 0, Fin 0, Fin 1) = (Fin 1, Fin 0, Fin 0)).
  { unfold horz_of. assert (E : vsubs (N := XN) (Fin 1, Fin 0, Fin 0) (dot (N := XN) (Fin 1, Fin 0, Fin 0) (Fin 0, Fin 0, Fin 1)) = (Fin 1, Fin 0, Fin 0)) by (cbn; apply pt_eq; f_equal; ring).
    rewrite E, ex_norm, ex_divs by lra. reflexivity. }
  assert (K : forall (h U v : pt), t_horz t = h -> t_U0 t = U -> t_vert t = v -> h = (Fin 1, Fin 0, Fin 0) -> U = (Fin 8, Fin 0, Fin 0) -> v = (Fin 0, Fin 0, Fin 1) -> yaw_wind (N := XN) t = Fin 0).
  { intros h U v Eh EU Ev Hh HU Hv. unfold yaw_wind. rewrite Eh, EU, Ev, nsign0.
    assert (E : vsub U (vscale (dot U v) v) = U) by (rewrite HU, Hv; cbn; apply pt_eq; f_equal; ring).
    assert (EN : norm U = Fin 8) by (rewrite HU; apply ex_norm; lra).
    assert (EV : vdivs U (Fin 8) = h) by (rewrite HU, Hh; apply ex_divs; lra).
    assert (E1 : neqb XN (dot (cross h U) v) (nZ XN 0) = true) by (rewrite Hh, HU, Hv; apply Reqb_true; ring).
    assert (E2 : dot h h = Fin 1) by (rewrite Hh; cbn; f_equal; ring).
    rewrite E, EN, EV, E1, E2. cbn. destruct (Rltb_spec 1 (-1)); [lra|]. destruct (Rltb_spec 1 1); [lra|]. cbn. f_equal. apply acos_1. }
  intros H1 H2 H3. apply (K _ _ _ H1 H2 H3 EH eq_refl eq_refl).
Qed.
Lemma ex_mirror_wind a : yaw_wind (ex_mirror a) = Fin 0.
Proof. apply ex_wind; reflexivity. Qed.
Lemma ex_mirror_pair a : ex_mirror (- a) = mirrored cY (ex_mirror a).
Proof.
  unfold ex_mirror. change (Fin (- a)) with (nopp XN (Fin a)). 
  assert (E0 : forall x z : R, mir cY (Fin x, Fin 0, Fin z) = (Fin x, Fin 0, Fin z)) by (intros; unfold mir; cbn; rewrite Ropp_0; reflexivity).
  set (A := new_turbine _ _ _ _ _ _ _ _ _ _). assert (EA : A = mirrored cY A).
  { unfold A. rewrite <- C148_built by (cbn; f_equal; ring). rewrite !E0. reflexivity. }
  rewrite EA at 1. rewrite (proj1 (C148_moved cY A (Fin a) (Fin 0, Fin 0, Fin 0) (Fin 0, Fin 0, Fin 0) (Fin 0))). reflexivity.
Qed.
Example C148_nonvacuous : forall a, sized (ex_mirror a) /\ sided (ex_mirror a) /\ swirl_free (ex_mirror a) default_opts /\ ex_mirror (- a) = mirrored cY (ex_mirror a) /\
  farm_ready [OWT (ex_mirror a); OWT (ex_mirror (- a))] [0; 1]%nat (farm_opts default_opts) /\
  (* a point on the axis and a point beside it *)
  onaxis (Fin 0, Fin 0, Fin 5) /\ ~ onaxis (Fin 1, Fin 0, Fin 5).
Proof.
  assert (A : forall a, sized (ex_mirror a) /\ sided (ex_mirror a) /\ swirl_free (ex_mirror a) default_opts).
  { intros a. split; [|split].
    - split; [exists 2; split; [reflexivity|lra]|exact I].
    - right. right. apply ex_mirror_wind.
    - split; reflexivity. }
  intros a. destruct (A a) as (A1 & A2 & A3). split; [exact A1|]. split; [exact A2|]. split; [exact A3|]. split; [apply ex_mirror_pair|]. split; [|split].
  - intros k t [<-|[<-|[]]] E; inversion E; subst t; apply A.
  - exists (Fin 5). reflexivity.
  - intros [z H]. inversion H. lra.
Qed.
(** the hypotheses of [C148_yawed] hold of a turbine loaded by the user's own function *)
Example C148_yawed_nonvacuous : forall a,
  let T (y : XN) := fst (update_loading (N := XN) (fun _ _ _ => Fin 0) (Some [Fin 1]) (Some [Fin (1 / 2)]) None (Some (Fin 7)) None (Some (fun c => Ok c))
    (update_yaw_pos (new_turbine (N := XN) (Fin 2) (Fin 1, Fin 0, Fin 80) (Fin 1, Fin 0, Fin 0) (Fin 0, Fin 0, Fin 1) (Fin 8, Fin 0, Fin 0) None None "" true "VC") y)) in
  sized (T (Fin a)) /\ yaw_wind (T (Fin a)) = Fin 0 /\ swirl_free (T (Fin a)) default_opts /\ mir cY (Fin 1, Fin 0, Fin 80) = (Fin 1, Fin 0, Fin 80) /\
  t_gt (T (Fin a)) = Some [Fin (1 / 2)].
Proof.
  intros a T. split; [|split; [|split; [|split]]].
  - split; [exists 2; split; [reflexivity|lra]|]. constructor; [exists 1; split; [reflexivity|lra]|constructor].
  - apply ex_wind; reflexivity.
  - split; reflexivity.
  - unfold mir. cbn. rewrite Ropp_0. reflexivity.
  - reflexivity.
Qed.
