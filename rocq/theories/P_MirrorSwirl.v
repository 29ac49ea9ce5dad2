(** * C151: mirror symmetry with swirl: the rotor seen in the mirror turns the other way *)
From Coq Require Import Reals Lra ZArith List Bool String Lia.
From Coquelicot Require Import Coquelicot.
From Coq Require Import List.
From Verif Require Import Num NumR NumX M_Elliptic M_Line M_Doublet M_Cylinder M_Misc M_Skewed M_Solver M_Turbine M_Farm Spec L_Geom L_Angles L_Farm L_TurbineX L_Mirror P_Units P_Mirror.
Import ListNotations.
Local Open Scope R_scope.
Local Open Scope list_scope.
Local Notation len := List.length.

(** ** Specification *)
(** the turbine turning the other way: its root vortex and its longitudinal vorticity change sign, its tangential vorticity does not *)
Definition reversed (t : turbine XN) : turbine XN :=
  {| t_R := t_R t; t_rhub := t_rhub t; t_shaft := t_shaft t; t_shaft0 := t_shaft0 t; t_vert := t_vert t; t_horz := t_horz t;
     t_TF2g := t_TF2g t; t_Tc2wt := t_Tc2wt t; t_Twt2g := t_Twt2g t; t_yaw := t_yaw t; t_U0 := t_U0 t;
     t_r := t_r t; t_gt := t_gt t; t_gl := option_map (option_map (map (nopp XN))) (t_gl t); t_Gr := option_map (nopp XN) (t_Gr t);
     t_Lambda := option_map (nopp XN) (t_Lambda t); t_ground := t_ground t; t_chi := t_chi t; t_model := t_model t; t_Ct := t_Ct t; t_name := t_name t |}.
Definition image (i : coord) (t : turbine XN) : turbine XN := reversed (mirrored i t).
(** the query points in the axes of the rotor, and with a ground effect their images in the ground *)
Definition rotor_points (t : turbine XN) (o : opts XN) (pts : list pt) : list (list pt) :=
  ylist (match o_ground o with Some g => g | None => t_ground t end) (transform_T (T_c2g t) (t_rhub t)) (map (transform_T (T_c2g t)) pts).

(** ** Kernels *)
Lemma mul0_opp (x : XN) : nopp XN (nmul XN x (nZ XN 0)) = nmul XN x (nZ XN 0).
Proof. destruct x; cbn; auto; try (f_equal; ring); unfold xinf_mul; destruct (Rltb_spec 0 0); try lra; reflexivity. Qed.
Lemma eqb_opp0 (x : XN) : neqb XN (nopp XN x) (nZ XN 0) = neqb XN x (nZ XN 0).
Proof. eapply sg_eqb0, sg_opp1. Qed.
Lemma pt0 (r : XN) : (nmul XN r (nZ XN 0), nmul XN r (nZ XN 0), nmul XN r (nZ XN 0)) = flip3 (nmul XN r (nZ XN 0), nmul XN r (nZ XN 0), nmul XN r (nZ XN 0)).
Proof. unfold flip3, mir; cbn [eqc flip]. rewrite mul0_opp. reflexivity. Qed.
(** the angle of a mirrored point, on the axis and beside it *)
Lemma m_polar (p : pt) : (exists z : XN, p = (Fin 0, Fin 0, z)) \/
  exists r psi psi' z : XN, to_polar p = (r, psi, z) /\ to_polar (flip3 p) = (r, psi', z) /\ sg true (ncos XN psi) (ncos XN psi') /\ sg false (nsin XN psi) (nsin XN psi').
Proof.
  destruct p as [[x y] z]. destruct (atan2_mirror x y) as [[-> ->]|[HC HS]]; [left; exists z; reflexivity|right].
  exists (nsqrt XN (nadd XN (sq x) (sq y))), (natan2 XN y x), (natan2 XN y (nopp XN x)), z. split; [reflexivity|]. split; [|split; assumption].
  unfold to_polar, flip3, mir; cbn [eqc flip]. f_equal. f_equal. refine (sg_same _ _ _). parw.
Qed.
Lemma vl_polar G b p : vl_semiinf_straight_u (N := XN) G b p = let '(r, psi, z) := to_polar p in vl_semiinf_straight_u_polar G b r psi z.
Proof. destruct p as [[x y] z]. reflexivity. Qed.
Ltac trig psi psi' := let c := fresh "c" in let s := fresh "s" in let c' := fresh "c'" in let s' := fresh "s'" in
  set (c := ncos XN psi) in *; set (c' := ncos XN psi') in *; set (s := nsin XN psi) in *; set (s' := nsin XN psi') in *; clearbody c c' s s'.
(** the straight root vortex, off the axis *)
Lemma s_root1 G p : ~ onaxis p -> vl_semiinf_straight_u (N := XN) (nopp XN G) false (flip3 p) = flip3 (vl_semiinf_straight_u G false p).
Proof.
  intros HP. rewrite !vl_polar. destruct (m_polar p) as [[z ->]|(r & psi & psi' & z & -> & -> & HC & HS)]; [exfalso; apply HP; exists z; reflexivity|].
  unfold vl_semiinf_straight_u_polar, vl_straight_cart_of_polar. rewrite eqb_opp0. destruct (neqb XN G (nZ XN 0)); [apply pt0|].
  unfold flip3, mir; cbn [eqc flip]. assert (HG : sg true G (nopp XN G)) by apply sg_opp1. set (G' := nopp XN G) in *. clearbody G'. trig psi psi'.
  apply pt_eq; [apply sgT; parw|apply sg_same; parw|reflexivity].
Qed.
(** the straight longitudinal vorticity: everywhere *)
Lemma s_upsi g R rz P : sg true (vc_longi_upsi (N := XN) g R rz P) (vc_longi_upsi (nopp XN g) R rz P).
Proof. destruct rz as [r z]. unfold vc_longi_upsi. assert (HG : sg true g (nopp XN g)) by apply sg_opp1. set (g' := nopp XN g) in *. clearbody g'. parw. Qed.

Lemma upsi_axis (g z P : XN) R : 0 < R -> vc_longi_upsi g (Fin R) (Fin 0, z) P = nnan XN.
Proof.
  intros HR. unfold vc_longi_upsi.
  assert (EA : nmul XN z (nsqrt XN (ndiv XN (nmul XN (nmul XN (nZ XN 4) (Fin 0)) (Fin R)) (nadd XN (sq (nadd XN (Fin 0) (Fin R))) (sq z)))) = nnan XN \/
    exists a, nmul XN z (nsqrt XN (ndiv XN (nmul XN (nmul XN (nZ XN 4) (Fin 0)) (Fin R)) (nadd XN (sq (nadd XN (Fin 0) (Fin R))) (sq z)))) = Fin a /\ a = 0).
  { assert (E0 : nmul XN (nmul XN (nZ XN 4) (Fin 0)) (Fin R) = Fin 0) by (cbn; f_equal; ring). rewrite E0.
    destruct z as [z| | |]; [right|left..]; [|cbn; try reflexivity..].
    - exists 0. split; [|reflexivity]. cbn. destruct (Reqb_spec ((0 + R) * (0 + R) + z * z) 0); [nra|]. unfold Rdiv. rewrite Rmult_0_l. cbn. destruct (Rltb_spec 0 0); [lra|]. rewrite sqrt_0. f_equal. ring.
    - unfold xinf_mul. destruct (Rltb_spec 0 0); [lra|]. rewrite sqrt_0. destruct (Rltb_spec 0 0); [lra|]. reflexivity.
    - unfold xinf_mul. destruct (Rltb_spec 0 0); [lra|]. rewrite sqrt_0. destruct (Rltb_spec 0 0); [lra|]. reflexivity. }
  assert (EB : nmul XN (nmul XN (nZ XN 2) (npi XN)) (nsqrt XN (nmul XN (Fin 0) (Fin R))) = Fin 0).
  { cbn. rewrite Rmult_0_l. destruct (Rltb_spec 0 0); [lra|]. rewrite sqrt_0. f_equal. ring. }
  rewrite EB. set (A := nmul XN z _) in *. clearbody A. assert (ED : ndiv XN A (Fin 0) = nnan XN).
  { destruct EA as [-> | (a & -> & ->)]; cbn; [reflexivity|]. destruct (Reqb_spec 0 0); [|lra]. unfold xinf_mul. destruct (Rltb_spec 0 0); [lra|]. reflexivity. }
  rewrite ED. generalize (nsub XN (nellipk XN (ndiv XN (nmul XN (nmul XN (nZ XN 4) (Fin 0)) (Fin R)) (nadd XN (sq (nadd XN (Fin 0) (Fin R))) (sq z)))) (nmul XN (ndiv XN (nsub XN (Fin R) (Fin 0)) (nadd XN (Fin R) (Fin 0))) P)).
  intros K. change (nmul XN (nnan XN) K) with (nnan XN).
  generalize (ndiv XN (nadd XN (nsub XN (Fin 0) (Fin R)) (nabs XN (nsub XN (Fin R) (Fin 0)))) (nmul XN (nZ XN 2) (nabs XN (nsub XN (Fin R) (Fin 0))))). intros B.
  replace (nadd XN B (nnan XN)) with (nnan XN) by (destruct B; reflexivity).
  generalize (ndiv XN (nmul XN (ndiv XN g (nZ XN 2)) (Fin R)) (Fin 0)). intros C. destruct C; reflexivity.
Qed.
Lemma rz_map pts : map (fun p => (fst (fst p), snd p)) (map to_polar (map flip3 pts)) = map (fun p : pt => (fst (fst p), snd p)) (map to_polar pts).
Proof.
  rewrite !map_map. apply map_ext. intros p. destruct p as [[x y] z]. unfold to_polar, flip3, mir; cbn [eqc flip fst snd]. f_equal. refine (sg_same _ _ _). parw.
Qed.
Lemma s_longi PIb g R pts : 0 < R -> vc_longi_u_gen (N := XN) PIb (nopp XN g) (Fin R) false (map flip3 pts) = map flip3 (vc_longi_u_gen PIb g (Fin R) false pts).
Proof.
  intros HR. unfold vc_longi_u_gen, vc_longi_u_polar_gen. rewrite rz_map. set (rz := map (fun p : pt => (fst (fst p), snd p)) (map to_polar pts)).
  generalize (PIb (map (vc_longi_nm (N := XN) (Fin R)) rz)) as PIs. unfold rz. clear rz. induction pts as [|p pts IH]; intros PIs; [reflexivity|].
  destruct PIs as [|P PIs]; [reflexivity|]. cbn [map map2]. f_equal; [|apply IH].
  destruct (m_polar p) as [[z ->]|(r & psi & psi' & z & -> & -> & HC & HS)].
  - assert (EZ : flip3 (Fin 0, Fin 0, z) = (Fin 0, Fin 0, z) :> pt) by (unfold flip3, mir; cbn [eqc flip]; cbn; rewrite Ropp_0; reflexivity). rewrite EZ.
    assert (EP : to_polar (N := XN) (Fin 0, Fin 0, z) = (Fin 0, natan2 XN (Fin 0) (Fin 0), z)).
    { unfold to_polar. f_equal. f_equal. exact (axis_r z). }
    rewrite EP. cbn [fst snd]. rewrite !upsi_axis by assumption. reflexivity.
  - cbn [fst snd]. pose proof (s_upsi g (Fin R) (r, z) P) as HU. set (U := vc_longi_upsi g (Fin R) (r, z) P) in *.
    set (U' := vc_longi_upsi (nopp XN g) (Fin R) (r, z) P) in *. clearbody U U'. trig psi psi'. unfold flip3, mir; cbn [eqc flip].
    apply pt_eq; [apply sgT; parw|apply sg_same; parw|reflexivity].
Qed.
(** the skewed root vortex: everywhere *)
Lemma s_gen G m r psi psi' z : sg true (nmul XN r (ncos XN psi)) (nmul XN r (ncos XN psi')) -> nmul XN r (nsin XN psi') = nmul XN r (nsin XN psi) ->
  svr_out false (r, psi', z) (svr_general (N := XN) (nopp XN G) (nopp XN m) (r, psi', z)) = flip3 (svr_out false (r, psi, z) (svr_general G m (r, psi, z))).
Proof.
  intros HC HS. unfold svr_out, svr_general. rewrite HS. set (y := nmul XN r (nsin XN psi)). set (x := nmul XN r (ncos XN psi)) in *. set (x' := nmul XN r (ncos XN psi')) in *.
  assert (HG : sg true G (nopp XN G)) by apply sg_opp1. assert (Hm : sg true (natan XN m) (natan XN (nopp XN m))) by (eapply sg_atan, sg_opp1).
  set (chi := natan XN m) in *. set (chi' := natan XN (nopp XN m)) in *. set (G' := nopp XN G) in *. clearbody x x' y chi chi' G'.
  assert (H0 : nsin XN chi' = nopp XN (nsin XN chi)) by (apply sgT; eapply sg_sin; exact Hm).
  assert (H1 : ncos XN chi' = ncos XN chi) by (apply sg_same; eapply sg_cos; exact Hm).
  unfold vl_semiinf_u. cbv zeta.
  assert (E1 : nsqrt XN (nadd XN (nadd XN (sq x') (sq y)) (sq z)) = nsqrt XN (nadd XN (nadd XN (sq x) (sq y)) (sq z))) by (refine (sg_same _ _ _); parw).
  assert (E2 : nadd XN (nadd XN (nmul XN x' (nsin XN chi')) (nmul XN y (nZ XN 0))) (nmul XN z (ncos XN chi')) = nadd XN (nadd XN (nmul XN x (nsin XN chi)) (nmul XN y (nZ XN 0))) (nmul XN z (ncos XN chi))).
  { rewrite H0, H1. set (s := nsin XN chi). clearbody s. assert (HSS : sg true s (nopp XN s)) by apply sg_opp1. set (s' := nopp XN s) in *. clearbody s'. apply sg_same. parw. }
  rewrite E1, E2. clear E1 E2. destruct (_ || _)%bool.
  - cbn [Z.leb andb vl_vec]. unfold flip3, mir; cbn [eqc flip]. rewrite opp0. reflexivity.
  - cbn [vl_vec Z.leb Z.compare andb Z.eqb]. rewrite H0, H1. set (s := nsin XN chi). clearbody s. assert (HSS : sg true s (nopp XN s)) by apply sg_opp1. set (s' := nopp XN s) in *. clearbody s'.
    unfold flip3, mir; cbn [eqc flip]. apply pt_eq; [apply sgT; parw|apply sg_same|apply sg_same].
    + eapply sg_b; [|eapply sg_mul; [|eapply sg_sub; [eapply sg_b; [|eapply sg_mul; [apply sg_const|exact HC]]|eapply sg_b; [|eapply sg_mul; [exact HSS|apply sg_const]]]]]; cycle 1; [parw|reflexivity..].
    + eapply sg_b; [|eapply sg_mul; [|eapply sg_sub; [eapply sg_b; [|eapply sg_mul; [exact HSS|apply sg_const]]|]]]; cycle 1; [parw|reflexivity| |].
      * eapply sg_b; [|eapply sg_mul; [apply sg_const|exact HC]]. reflexivity.
      * reflexivity.
Qed.
Lemma s_m0 G r psi psi' z : sg true (ncos XN psi) (ncos XN psi') -> sg false (nsin XN psi) (nsin XN psi') ->
  svr_out false (r, psi', z) (svr_m0 (N := XN) (nopp XN G) (r, psi', z)) = flip3 (svr_out false (r, psi, z) (svr_m0 G (r, psi, z))).
Proof.
  intros HC HS. unfold svr_out, svr_m0. assert (HG : sg true G (nopp XN G)) by apply sg_opp1. set (G' := nopp XN G) in *. clearbody G'. trig psi psi'.
  unfold flip3, mir; cbn [eqc flip]. apply pt_eq; [apply sgT; parw|apply sg_same; parw|reflexivity].
Qed.
Lemma mul_0_opp (x : XN) : nmul XN (nopp XN x) (nZ XN 0) = nmul XN x (nZ XN 0).
Proof. destruct x; cbn; auto; try (f_equal; ring); unfold xinf_mul; destruct (Rltb_spec 0 0); try lra; reflexivity. Qed.
Lemma s_plane G m r psi psi' z : sg true (ncos XN psi) (ncos XN psi') -> sg false (nsin XN psi) (nsin XN psi') ->
  svr_out false (r, psi', z) (svr_plane (N := XN) (nopp XN G) (nopp XN m) (r, psi', z)) = flip3 (svr_out false (r, psi, z) (svr_plane G m (r, psi, z))).
Proof.
  intros HC HS. unfold svr_out, svr_plane. destruct (nlt XN EPS_AXIS r).
  - assert (HG : sg true G (nopp XN G)) by apply sg_opp1. set (G' := nopp XN G) in *. clearbody G'.
    assert (Hm : sg true m (nopp XN m)) by apply sg_opp1. set (m' := nopp XN m) in *. clearbody m'. trig psi psi'.
    unfold flip3, mir; cbn [eqc flip]. apply pt_eq; [apply sgT; parw|apply sg_same; parw|apply sg_same; parw].
  - unfold flip3, mir; cbn [eqc flip]. apply pt_eq; [|rewrite (sgT _ _ HC); apply mul_0_opp|reflexivity].
    rewrite (sg_same _ _ HS). symmetry. apply mul0_opp.
Qed.
Lemma absz_map pts : map (fun p : pt => nabs XN (snd p)) (map to_polar (map flip3 pts)) = map (fun p : pt => nabs XN (snd p)) (map to_polar pts).
Proof. rewrite !map_map. apply map_ext. intros [[x y] z]. reflexivity. Qed.
(** on the axis the code takes the angle zero on both sides *)
Lemma axis_sin : nmul XN (Fin 0) (nsin XN (natan2 XN (Fin 0) (Fin 0))) = Fin 0 /\ nmul XN (Fin 0) (ncos XN (natan2 XN (Fin 0) (Fin 0))) = Fin 0.
Proof. split; cbn; f_equal; ring. Qed.
Lemma flip3_axis z : flip3 (Fin 0, Fin 0, z) = (Fin 0, Fin 0, z).
Proof. unfold flip3, mir; cbn [eqc flip]. cbn. rewrite Ropp_0. reflexivity. Qed.
Lemma polar_axis z : to_polar (N := XN) (Fin 0, Fin 0, z) = (Fin 0, natan2 XN (Fin 0) (Fin 0), z).
Proof. unfold to_polar. f_equal. f_equal. exact (axis_r z). Qed.
Lemma atan2_00 : natan2 XN (Fin 0) (Fin 0) = Fin 0.
Proof. cbn. f_equal. unfold Ratan2. destruct (Req_EM_T (0 * 0 + 0 * 0) 0) as [_|H]; [reflexivity|exfalso; apply H; ring]. Qed.
Lemma s_svroot G m pts : neqb XN m (nZ XN 0) = false \/ Forall (fun p => ~ onaxis p) pts ->
  svc_root_u (N := XN) (nopp XN G) (nopp XN m) false (map flip3 pts) = mirrored_result cX (svc_root_u G m false pts).
Proof.
  intros HA. unfold svc_root_u, svc_root_u_polar. rewrite eqb_opp0. destruct (neqb XN G (nZ XN 0)).
  { cbn [mirrored_result]. f_equal. rewrite !map_map. apply map_ext. intros [[x y] z]. unfold to_polar, flip3, mir; cbn [eqc flip].
    assert (E : nsqrt XN (nadd XN (sq (nopp XN x)) (sq y)) = nsqrt XN (nadd XN (sq x) (sq y))) by (refine (sg_same _ _ _); parw). rewrite E, mul0_opp. reflexivity. }
  rewrite eqb_opp0. destruct (neqb XN m (nZ XN 0)) eqn:EM.
  { destruct HA as [HA|HA]; [discriminate|]. cbn [mirrored_result]. f_equal. rewrite !map_map. apply map_ext_in. intros p Hp.
    rewrite Forall_forall in HA. specialize (HA p Hp).
    destruct (m_polar p) as [[z ->]|(r & psi & psi' & z & -> & -> & HC & HS)]; [exfalso; apply HA; exists z; reflexivity|]. apply s_m0; assumption. }
  destruct pts as [|p0 pts]; [reflexivity|]. rewrite absz_map. set (l := p0 :: pts).
  match goal with |- match ?q with [] => _ | _ :: _ => ?b end = mirrored_result _ (match ?q' with [] => _ | _ :: _ => ?b' end) => change (b = mirrored_result cX b') end.
  destruct (nlt XN (nZ XN 0) (amax (map (fun p : pt => nabs XN (snd p)) (map to_polar l)))); cbn [mirrored_result]; f_equal; rewrite !map_map; apply map_ext; intros p;
  (destruct (m_polar p) as [[z ->]|(r & psi & psi' & z & -> & -> & HC & HS)]; [rewrite flip3_axis, polar_axis|]).
  - apply s_gen; [|reflexivity]. destruct axis_sin as [_ ->]. unfold sg. cbn. f_equal. ring.
  - apply s_gen; [eapply sg_b; [|eapply sg_mul; [apply sg_const|exact HC]]; reflexivity|]. rewrite (sg_same _ _ HS). reflexivity.
  - rewrite atan2_00. unfold svr_out, svr_plane. replace (nlt XN EPS_AXIS (Fin 0)) with false by (symmetry; apply Rltb_false; lra).
    unfold flip3, mir; cbn [eqc flip]. rewrite mul0_opp. reflexivity.
  - apply s_plane; assumption.
Qed.
Lemma s_vcroot G pts : Forall (fun p => ~ onaxis p) pts -> vc_root_u (N := XN) (nopp XN G) false (map flip3 pts) = map flip3 (vc_root_u G false pts).
Proof.
  intros H. unfold vc_root_u. rewrite !map_map. apply map_ext_in. intros p Hp. rewrite Forall_forall in H. apply s_root1, H, Hp.
Qed.
Lemma s_vcs_longi gr c gs rs pts : radii_pos rs ->
  vcs_longi_u gr [(flip3 c, map2 pair (map (nopp XN) gs) rs)] (map flip3 pts) = map flip3 (vcs_longi_u (N := XN) gr [(c, map2 pair gs rs)] pts).
Proof.
  intros HR. unfold vcs_longi_u, vcs_longi_u_gen. rewrite (m_fzero pts flip3). cbn [fold_left fst snd].
  rewrite (map_com (shift c) (shift (flip3 c)) flip3 flip3) by (intros; apply m_shift). set (Y := map (shift c) pts). generalize (fzero (N := XN) pts) as u.
  revert gs. induction HR as [|r rs (x & -> & Hx) HR IH]; intros [|g gs] u; [reflexivity..|]. cbn [map map2 fold_left fst snd]. rewrite <- IH. f_equal.
  replace (nabs XN (nopp XN g)) with (nabs XN g) by (symmetry; apply sg_same; eapply sg_abs, sg_opp1).
  destruct (nlt XN (nZ XN 0) (nabs XN g)); [|reflexivity]. rewrite s_longi by exact Hx. apply m_fadd.
Qed.
(** what is asked of the swirl: with the longitudinal vorticity, a wake that is not skewed; with the root vortex, a skewed wake or points off its axis *)
Definition swirl_ok (t : turbine XN) (o : opts XN) (pts : list pt) : Prop :=
  (o_longi o = true -> skewed (chi_now t) = false \/ t_gl t = Some None) /\
  (o_root o = true -> (skewed (chi_now t) = true /\ neqb XN (ntan XN (chi_now t)) (nZ XN 0) = false) \/ Forall (Forall (fun p => ~ onaxis p)) (rotor_points t o pts)).
Lemma fold_relm_in {A A' Bx C C' : Type} (r : C -> C') (h : A -> A') (P : A -> Prop) (f : C -> A -> C) (f' : C' -> A' -> C') :
  (forall u a, P a -> f' (r u) (h a) = r (f u a)) -> forall l u, Forall P l -> fold_left f' (map h l) (r u) = r (fold_left f l u).
Proof. intros H. induction l as [|a l IH]; intros u HP; [reflexivity|]. inversion HP; subst. cbn [map fold_left]. rewrite H by assumption. apply IH. assumption. Qed.
Lemma s_cu_root i t o chi Yl u :
  (o_root o = true -> (skewed chi = true /\ neqb XN (ntan XN chi) (nZ XN 0) = false) \/ Forall (Forall (fun p => ~ onaxis p)) Yl) ->
  cu_root (image i t) o (nopp XN chi) (map (map flip3) Yl) (map flip3 u) = mirrored_result cX (cu_root t o chi Yl u).
Proof.
  intros H. unfold cu_root. cbn [image reversed mirrored t_Gr]. rewrite m_skewed, m_tan. destruct (o_root o); [|reflexivity]. specialize (H eq_refl).
  destruct (t_Gr t) as [G|]; [|reflexivity]. cbn [option_map]. rewrite eqb_opp0. destruct (neqb XN G (nZ XN 0)); [reflexivity|].
  change (Ok (map flip3 u)) with (mirrored_result cX (Ok u)).
  refine (@fold_relm_in _ _ unit _ _ (mirrored_result cX) (map flip3) (fun Y => (skewed chi = true /\ neqb XN (ntan XN chi) (nZ XN 0) = false) \/ Forall (fun p => ~ onaxis p) Y) _ _ _ Yl (Ok u) _).
  - intros [us|e] Y HY; [|reflexivity]. cbn [mirrored_result Num.bind]. destruct (skewed chi) eqn:ES.
    + rewrite s_svroot by tauto. destruct (svc_root_u G (ntan XN chi) false Y) as [w|e]; cbn [mirrored_result Num.bind]; [|reflexivity]. f_equal. apply m_fadd.
    + rewrite s_vcroot by (destruct HY as [[HY _]|HY]; [discriminate|exact HY]). cbn [Num.bind mirrored_result]. f_equal. apply m_fadd.
  - destruct H as [H|H]; [apply Forall_forall; intros; left; exact H|]. revert H. apply Forall_impl. intros; right; assumption.
Qed.
Lemma s_cu_single i t o M chi g Yl u : sized t -> (o_longi o = true -> skewed chi = false \/ t_gl t = Some None) ->
  cu_single (image i t) o M (nopp XN chi) g (map (map flip3) Yl) (map flip3 u) = mirrored_result cX (cu_single t o M chi g Yl u).
Proof.
  intros HS HL. unfold cu_single. change (Ok (map flip3 u)) with (mirrored_result cX (Ok u)). apply fold_relm.
  intros [us|e] Y; [|reflexivity]. cbn [mirrored_result Num.bind]. change (cu_tang1 (image i t)) with (cu_tang1 (mirrored i t)). rewrite m_cu_tang1 by exact HS.
  assert (K : forall r : result (list pt), (let* u0 := mirrored_result cX r in let* gl := gl_active1 (image i t) (o_longi o) in
      match gl with Some gl0 => let* v := cu_longi1 (image i t) M (nopp XN chi) gl0 (map flip3 Y) in Ok (fadd u0 v) | None => Ok u0 end) =
    mirrored_result cX (let* u0 := r in let* gl := gl_active1 t (o_longi o) in match gl with Some gl0 => let* v := cu_longi1 t M chi gl0 Y in Ok (fadd u0 v) | None => Ok u0 end)).
  { intros [w|e]; [|reflexivity]. cbn [mirrored_result Num.bind]. unfold gl_active1. cbn [image reversed mirrored t_gl].
    destruct (o_longi o); cbn [negb]; [|reflexivity]. specialize (HL eq_refl). destruct (t_gl t) as [[gs|]|]; cbn [option_map]; [|reflexivity..].
    destruct HL as [HL|HL]; [|discriminate]. destruct gs as [|gl [|g2 gs]]; [reflexivity| |reflexivity]. cbn [map Num.bind]. rewrite eqb_opp0.
    destruct (neqb XN gl (nZ XN 0)); [reflexivity|]. unfold cu_longi1. rewrite m_skewed, HL. destruct HS as [(R & ER & HR) _]. cbn [image reversed mirrored t_R].
    destruct (String.eqb M "VC"); [|reflexivity]. rewrite ER. unfold vc_longi_u. rewrite s_longi by exact HR. cbn [Num.bind mirrored_result]. f_equal. apply m_fadd. }
  destruct (o_tang o && negb (neqb XN g (nZ XN 0)))%bool; [|exact (K (Ok us))].
  destruct (cu_tang1 t o M chi g Y) as [w|e]; cbn [mirrored_result Num.bind]; [|reflexivity].
  change (map (mir cX) w) with (map flip3 w). change (map (mir cX) us) with (map flip3 us). rewrite m_fadd. exact (K (Ok (fadd us w))).
Qed.
Lemma s_cu_multi i t o M chi gs ground cyl pts u : sized t -> (o_longi o = true -> skewed chi = false \/ t_gl t = Some None) ->
  cu_multi (image i t) o M (nopp XN chi) gs ground (flip3 cyl) (map flip3 pts) (map flip3 u) = mirrored_result cX (cu_multi t o M chi gs ground cyl pts u).
Proof.
  intros [_ HR] HL. unfold cu_multi. cbn [image reversed mirrored t_r t_gl]. rewrite m_skewed, m_tan. destruct (String.eqb M "VC"); [|reflexivity]. destruct (t_r t) as [r|]; [|reflexivity].
  destruct (t_gl t) as [gl|]; cbn [option_map]; [|reflexivity]. destruct (negb (Nat.eqb (len gs) (len r))); [reflexivity|].
  replace (match option_map (map (nopp XN)) gl with Some gl => negb (Nat.eqb (len gl) (len r)) | None => false end) with (match gl with Some gl => negb (Nat.eqb (len gl) (len r)) | None => false end)
    by (destruct gl; cbn [option_map]; rewrite ?map_length; reflexivity).
  destruct (match gl with Some gl => negb (Nat.eqb (len gl) (len r)) | None => false end); [reflexivity|]. cbn [mirrored_result]. f_equal. change (map (mir cX)) with (map flip3).
  assert (ET : (if o_tang o then fadd (map flip3 u) (if skewed chi then svcs_tang_u 180 ground [(flip3 cyl, map2 (fun g r => (g, r, nopp XN (ntan XN chi))) gs r)] (map flip3 pts)
      else vcs_tang_u (nZ XN 0) ground [(flip3 cyl, map2 pair gs r)] (map flip3 pts)) else map flip3 u) =
    map flip3 (if o_tang o then fadd u (if skewed chi then svcs_tang_u 180 ground [(cyl, map2 (fun g r => (g, r, ntan XN chi)) gs r)] pts else vcs_tang_u (nZ XN 0) ground [(cyl, map2 pair gs r)] pts) else u)).
  { destruct (o_tang o); [|reflexivity]. rewrite <- m_fadd. f_equal. destruct (skewed chi); [apply m_svcs_tang, HR|apply m_vcs_tang, HR]. }
  rewrite ET. destruct (o_longi o); [|reflexivity]. specialize (HL eq_refl). destruct gl as [gl|]; [|reflexivity]. cbn [option_map].
  destruct HL as [HL|HL]; [|discriminate]. rewrite HL, <- m_fadd. f_equal. apply s_vcs_longi, HR.
Qed.
Lemma s_compute i t o pts : sized t -> sided t -> swirl_ok t o pts ->
  compute_u (image i t) o (map (mir i) pts) = (image i (fst (compute_u t o pts)), mirrored_result i (snd (compute_u t o pts))).
Proof.
  intros HZ HS [HL HRt]. unfold rotor_points in HRt. unfold compute_u. change (chi_now (image i t)) with (chi_now (mirrored i t)). rewrite m_chi by exact HS. cbn [fst snd]. f_equal.
  change (T_c2g (image i t)) with (T_c2g (mirrored i t)). rewrite m_Tc2g. change (t_gt (image i t)) with (t_gt t). change (t_rhub (image i t)) with (mir i (t_rhub t)).
  change (t_ground (image i t)) with (t_ground t). change (t_model (image i t)) with (t_model t). change (t_R (image i t)) with (t_R t). change (t_U0 (image i t)) with (mir i (t_U0 t)).
  destruct (t_gt t) as [gs|]; [|reflexivity].
  rewrite (map_com (transform_T (T_c2g t)) (transform_T (mirM i cX (T_c2g t))) (mir i) flip3) by (intros; apply m_transform_T).
  rewrite m_transform_T, m_ylist. rewrite (m_fzero pts (mir i)).
  set (ptc := map (transform_T (T_c2g t)) pts) in *. set (cyl := transform_T (T_c2g t) (t_rhub t)) in *.
  set (ground := match o_ground o with Some g => g | None => t_ground t end) in *. set (M := match o_Model o with Some m => m | None => t_model t end).
  rewrite s_cu_root by exact HRt. destruct (cu_root t o (chi_now t) (ylist ground cyl ptc) (fzero pts)) as [u0|e]; cbn [mirrored_result Num.bind]; [|reflexivity].
  change (map (mir cX) u0) with (map flip3 u0).
  replace (match gs with [g] => cu_single (image i t) o M (nopp XN (chi_now t)) g (map (map flip3) (ylist ground cyl ptc)) (map flip3 u0)
           | _ => cu_multi (image i t) o M (nopp XN (chi_now t)) gs ground (flip3 cyl) (map flip3 ptc) (map flip3 u0) end)
    with (mirrored_result cX (match gs with [g] => cu_single t o M (chi_now t) g (ylist ground cyl ptc) u0 | _ => cu_multi t o M (chi_now t) gs ground cyl ptc u0 end)).
  2:{ destruct gs as [|g [|g' gs]]; [rewrite <- (s_cu_multi i); auto|rewrite <- (s_cu_single i); auto|rewrite <- (s_cu_multi i); auto]. }
  destruct (match gs with [g] => cu_single t o M (chi_now t) g (ylist ground cyl ptc) u0 | _ => cu_multi t o M (chi_now t) gs ground cyl ptc u0 end) as [w|e]; cbn [mirrored_result Num.bind]; [|reflexivity].
  f_equal. rewrite (map_com (shift cyl) (shift (flip3 cyl)) flip3 flip3) by (intros; apply m_shift). set (p0 := map (shift cyl) ptc). change (map (mir cX) w) with (map flip3 w).
  rewrite (map2_map_lr _ (fun p v0 => if in_wake_tube (t_R t) p then (nZ XN 0, nZ XN 0, nZ XN 0) else v0) flip3 flip3 flip3).
  2:{ intros a b. rewrite m_tube. destruct (in_wake_tube (t_R t) a); [symmetry; apply mir_zero|reflexivity]. }
  set (w2 := if o_no_wake o then map2 _ p0 w else w).
  replace (if o_no_wake o then map flip3 (map2 (fun p v0 => if in_wake_tube (t_R t) p then (nZ XN 0, nZ XN 0, nZ XN 0) else v0) p0 w) else map flip3 w) with (map flip3 w2)
    by (unfold w2; destruct (o_no_wake o); reflexivity).
  rewrite (map_com (transform (T_c2g t)) (transform (mirM i cX (T_c2g t))) flip3 (mir i)) by (intros; apply m_transform).
  destruct (o_only_ind o); [reflexivity|]. apply map_com. intros; apply m_vadd.
Qed.
(** ** Loading: the rotor turning the other way *)
Local Notation opp := (nopp XN).
Lemma gtilde_opp g : gtilde (map opp g) = map opp (gtilde g).
Proof.
  induction g as [|a [|b g] IH]; [reflexivity| |].
  - cbn. rewrite sub_zero_r, sub_zero_r. reflexivity.
  - cbn [map gtilde] in *. rewrite <- IH. f_equal. apply sgT. eapply sg_sub; apply sg_opp1.
Qed.
Lemma hd_opp g : hd (nnan XN) (map opp g) = opp (hd (nnan XN) g).
Proof. destruct g; reflexivity. Qed.
Definition q_rev (q q' : XN * XN * XN * XN) : Prop := let '(k, l, _, _) := q in let '(k', l', _, _) := q' in k' = k /\ l' = opp l.
Definition s_rev (s s' : dstate XN) : Prop :=
  d_gs s' = d_gs s /\ d_rl s' = d_rl s /\ d_next s' = match d_next s with Some (k, l) => Some (k, opp l) | None => None end.
Lemma sq_opp (x : XN) : sq (opp x) = sq x.
Proof. apply sg_same. eapply sg_sq, sg_opp1. Qed.
Lemma dstep_rev b q q' s s' : q_rev q q' -> s_rev s s' -> s_rev (dstep true b q s) (dstep true b q' s').
Proof.
  destruct q as [[[k l] a] c], q' as [[[k' l'] a'] c']. intros [-> ->] (H1 & H2 & H3). unfold dstep. rewrite H1, H2, H3.
  destruct (d_next s) as [[k1 l1]|]; unfold s_rev; cbn [d_gs d_rl d_next]; rewrite ?sq_opp; auto.
Qed.
Lemma dloop_rev b qs qs' : Forall2 q_rev qs qs' -> s_rev (dloop true b qs) (dloop true b qs').
Proof. induction 1 as [|q q' qs qs' H HF IH]; [repeat split|]. unfold dloop in *. cbn [fold_right]. apply dstep_rev; assumption. Qed.
Lemma qs_rev : forall (k l : list XN) (ac ac' : list (XN * XN)), len ac = len ac' ->
  Forall2 q_rev (map2 (fun kl ac => (fst kl, snd kl, fst ac, snd ac)) (map2 pair k l) ac) (map2 (fun kl ac => (fst kl, snd kl, fst ac, snd ac)) (map2 pair k (map opp l)) ac').
Proof.
  induction k as [|a k IH]; intros [|b l] ac ac' H; try constructor. destruct ac as [|c ac], ac' as [|c' ac']; try discriminate; [constructor|].
  cbn [map map2]. constructor; [split; reflexivity|]. apply IH. injection H. auto.
Qed.
Lemma ap_len O O' : forall g g' rc : list XN, len g = len g' -> len (ap_conv O g rc) = len (ap_conv O' g' rc).
Proof.
  induction g as [|a [|b g] IH]; intros [|a' [|b' g']] rc H; try discriminate; try reflexivity.
  - destruct rc as [|r [|r' rc]]; reflexivity.
  - destruct rc as [|r rc]; [reflexivity|]. apply (f_equal S). apply (IH (b' :: g') rc). apply Nat.succ_inj. exact H.
Qed.
Lemma map2_len {A B C} (f : A -> B -> C) : forall a b, len (map2 f a b) = Nat.min (len a) (len b).
Proof. induction a as [|x a IH]; intros [|y b]; cbn; auto. Qed.
(** what the turbine keeps of the computed wake *)
Definition wake_rev (w w' : result (wake XN)) : Prop :=
  match w, w' with
  | Ok w, Ok w' => w_gt w' = w_gt w /\ w_gl w' = option_map (map opp) (w_gl w) /\ w_Gr w' = option_map opp (w_Gr w)
  | Err e, Err e' => e = e'
  | _, _ => False
  end.
Lemma discr_rev r G R U0 Om : wake_rev (WakeVorticityFromCirculation_Discr (N := XN) r G R U0 Om (nZ XN 1) true true true None)
  (WakeVorticityFromCirculation_Discr r (map opp G) R U0 (opp Om) (nZ XN 1) true true true None).
Proof.
  unfold WakeVorticityFromCirculation_Discr. destruct r as [|r0 r]; [reflexivity|]. set (rcp := r0 :: r). destruct (default_r_cyl rcp R) as [|rc0 rc]; [reflexivity|].
  destruct (nlt XN (amax (rc0 :: rc)) (amax rcp)); [reflexivity|]. destruct (neqb XN rc0 (nZ XN 0)); [reflexivity|]. cbv zeta.
  assert (EG : map (fun g => nmul XN g (nZ XN 1)) (map opp G) = map opp (map (fun g => nmul XN g (nZ XN 1)) G)).
  { rewrite !map_map. apply map_ext. intros g. apply sgT. eapply sg_b; [|eapply sg_mul; [apply sg_opp1|apply sg_const]]. reflexivity. }
  rewrite EG. set (G1 := map (fun g => nmul XN g (nZ XN 1)) G). clearbody G1. clear EG G.
  set (rcl := rc0 :: rc) in *. 
  assert (Ek : map (fun g => ndiv XN (nmul XN g (opp Om)) (nmul XN (npi XN) (sq U0))) (map opp G1) = map (fun g => ndiv XN (nmul XN g Om) (nmul XN (npi XN) (sq U0))) G1).
  { rewrite map_map. apply map_ext. intros g. apply sg_same. eapply sg_div; [|apply sg_const]. exact (sg_mul true true _ _ _ _ (sg_opp1 g) (sg_opp1 Om)). }
  assert (El : map (fun r => ndiv XN (nmul XN (opp Om) r) U0) rcl = map opp (map (fun r => ndiv XN (nmul XN Om r) U0) rcl)).
  { rewrite map_map. apply map_ext. intros x. apply sgT. eapply sg_div; [|apply sg_const]. exact (sg_mul true false _ _ _ _ (sg_opp1 Om) (sg_const x)). }
  rewrite Ek, El.
  match goal with |- wake_rev (Ok {| w_gt := map _ (d_gs (dloop true true ?q)); w_gl := _; w_Gr := _; w_a := _; w_ap := _; w_h := _; w_rcp_after := _ |}) (Ok {| w_gt := map _ (d_gs (dloop true true ?q')); w_gl := _; w_Gr := _; w_a := _; w_ap := _; w_h := _; w_rcp_after := _ |}) => assert (HQ : s_rev (dloop true true q) (dloop true true q')) end.
  { apply dloop_rev, qs_rev. rewrite !map2_len, !map_length. rewrite (ap_len Om (opp Om) G1 (map opp G1) rcl) by (rewrite map_length; reflexivity). reflexivity. }
  destruct HQ as (HQ & _ & _). split; [|split]; cbn [w_gt w_gl w_Gr].
  - rewrite HQ. reflexivity.
  - cbn [option_map]. f_equal. rewrite gtilde_opp. generalize (gtilde G1) as g. generalize rcp as rr. clear. induction rr as [|x r IH]; intros [|a g]; try reflexivity.
    cbn [map map2]. f_equal; [|apply IH]. apply sgT. eapply sg_div; [apply sg_opp1|apply sg_const].
  - cbn [option_map]. rewrite hd_opp. reflexivity.
Qed.

Lemma need_rev rr G R U0 Om : wake_rev (let* r := need rr in WakeVorticityFromCirculation_Discr (N := XN) r G R U0 Om (nZ XN 1) true true true None)
  (let* r := need rr in WakeVorticityFromCirculation_Discr r (map opp G) R U0 (opp Om) (nZ XN 1) true true true None).
Proof. destruct rr as [r|]; [apply discr_rev|reflexivity]. Qed.
Lemma nsum_opp (l : list XN) : nsum (map opp l) = opp (nsum l).
Proof.
  unfold nsum. assert (K : forall l a, fold_left (nadd XN) (map opp l) (opp a) = opp (fold_left (nadd XN) l a)).
  { clear. induction l as [|x l IH]; intros a; [reflexivity|]. cbn [map fold_left]. rewrite <- IH. f_equal. apply sgT. apply sg_add; apply sg_opp1. }
  rewrite <- K, opp0. reflexivity.
Qed.
Lemma mean_opp (l : list XN) : np_mean (map opp l) = opp (np_mean l).
Proof. unfold np_mean. rewrite map_length, nsum_opp. apply sgT. eapply sg_div; [apply sg_opp1|apply sg_const]. Qed.
Lemma interp_go_opp (x : XN) : forall xp fp, interp_go x xp (map opp fp) = opp (interp_go x xp fp).
Proof.
  induction xp as [|a xp IH]; intros fp; [destruct fp; reflexivity|]. destruct xp as [|b xp]; [destruct fp; reflexivity|].
  destruct fp as [|f [|g fp]]; [reflexivity..|].
  transitivity (if nlt XN x b then nadd XN (nmul XN (ndiv XN (nsub XN (opp g) (opp f)) (nsub XN b a)) (nsub XN x a)) (opp f) else interp_go x (b :: xp) (map opp (g :: fp))); [reflexivity|].
  rewrite IH. transitivity (opp (if nlt XN x b then nadd XN (nmul XN (ndiv XN (nsub XN g f) (nsub XN b a)) (nsub XN x a)) f else interp_go x (b :: xp) (g :: fp))); [|reflexivity].
  destruct (nlt XN x b); [|reflexivity].
  apply sgT. assert (H1 : sg true f (opp f)) by apply sg_opp1. assert (H2 : sg true g (opp g)) by apply sg_opp1. set (f' := opp f) in *. set (g' := opp g) in *. clearbody f' g'. parw.
Qed.
Lemma np_interp_opp (xs xp fp : list XN) : np_interp xs xp (map opp fp) = match np_interp xs xp fp with Ok l => Ok (map opp l) | Err e => Err e end.
Proof.
  unfold np_interp. destruct xp as [|x0 xp]; [reflexivity|]. destruct fp as [|f0 fp]; [reflexivity|]. set (F := f0 :: fp). cbn [map F]. unfold F.
  change (opp f0 :: map opp fp) with (map opp (f0 :: fp)). rewrite map_length. destruct (Nat.eqb _ _); [|reflexivity]. f_equal. rewrite map_map. apply map_ext. intros x.
  rewrite interp_go_opp. destruct (nlt XN x x0); reflexivity.
Qed.
Lemma load_interp_opp R r Ct Ga n : load_interp (N := XN) R r Ct (option_map (map opp) Ga) n =
  match load_interp R r Ct Ga n with Ok (r', c', g') => Ok (r', c', option_map (map opp) g') | Err e => Err e end.
Proof.
  unfold load_interp. destruct n as [n|]; [|reflexivity]. 
  assert (K : forall n, match r with None => Err ETypeError | Some r => match Ct with
     | Some c => let* c' := np_interp (map (fun x => nmul XN x R) (linspace (nQ XN 5 1000) (nQ XN 995 1000) n)) r c in Ok (Some (map (fun x => nmul XN x R) (linspace (nQ XN 5 1000) (nQ XN 995 1000) n)), Some c', option_map (map opp) Ga)
     | None => match option_map (map opp) Ga with None => Err ETypeError | Some g => let* g' := np_interp (map (fun x => nmul XN x R) (linspace (nQ XN 5 1000) (nQ XN 995 1000) n)) r g in Ok (Some (map (fun x => nmul XN x R) (linspace (nQ XN 5 1000) (nQ XN 995 1000) n)), Ct, Some g') end end end =
    match match r with None => Err ETypeError | Some r => match Ct with
     | Some c => let* c' := np_interp (map (fun x => nmul XN x R) (linspace (nQ XN 5 1000) (nQ XN 995 1000) n)) r c in Ok (Some (map (fun x => nmul XN x R) (linspace (nQ XN 5 1000) (nQ XN 995 1000) n)), Some c', Ga)
     | None => match Ga with None => Err ETypeError | Some g => let* g' := np_interp (map (fun x => nmul XN x R) (linspace (nQ XN 5 1000) (nQ XN 995 1000) n)) r g in Ok (Some (map (fun x => nmul XN x R) (linspace (nQ XN 5 1000) (nQ XN 995 1000) n)), Ct, Some g') end end end
    with Ok (r', c', g') => Ok (r', c', option_map (map opp) g') | Err e => Err e end).
  { intros k. destruct r as [r|]; [|reflexivity]. set (v := map _ _). destruct Ct as [c|]; [destruct (np_interp v r c); reflexivity|].
    destruct Ga as [g|]; [|reflexivity]. cbn [option_map]. rewrite np_interp_opp. destruct (np_interp v r g); reflexivity. }
  destruct n as [|[|n]]; [exact (K 0%nat)| |exact (K (S (S n)))].
  destruct Ga as [g|]; cbn [option_map map]; [|reflexivity]. rewrite mean_opp. reflexivity.
Qed.
Lemma omega_rev R u l : 0 < R -> 0 < u -> l <> 0 -> Rabs l < 20 ->
  let O := ndiv XN (nmul XN (Fin l) (Fin u)) (Fin R) in omega_fix (N := XN) O = O /\ omega_fix (opp O) = opp O /\
  ndiv XN (nmul XN O (Fin R)) (Fin u) = Fin l /\ ndiv XN (nmul XN (opp O) (Fin R)) (Fin u) = opp (Fin l) /\ nlt XN (Fin l) (nZ XN 20) = true /\ nlt XN (opp (Fin l)) (nZ XN 20) = true /\ (exists o, O = Fin o /\ o <> 0).
Proof.
  intros HR Hu H0 Hl O. apply Rabs_def2 in Hl. unfold O. cbn. destruct (Reqb_spec R 0); [lra|]. cbn. split; [reflexivity|]. split; [reflexivity|].
  destruct (Reqb_spec u 0); [lra|]. split; [f_equal; field; lra|]. split; [f_equal; field; lra|]. split; [apply Rltb_true; lra|]. split; [apply Rltb_true; lra|]. exists (l * u / R). split; [reflexivity|].
  apply Rmult_integral_contrapositive_currified; [apply Rmult_integral_contrapositive_currified; lra|apply Rinv_neq_0_compat; lra].
Qed.
Lemma kobj_opp (l c : XN) : k_obj (opp l) c = k_obj l c.
Proof. unfold k_obj. rewrite sq_opp. reflexivity. Qed.
Lemma circ_opp minim rb Ct (L : XN) : CirculationFromPrescribedCt minim rb Ct (opp L) true = CirculationFromPrescribedCt minim rb Ct L true.
Proof.
  unfold CirculationFromPrescribedCt. revert Ct. induction rb as [|r rb IH]; intros [|c Ct]; try reflexivity. cbn [map2]. f_equal; [|apply IH].
  destruct (nlt XN (nZ XN 0) c && nlt XN (nZ XN 0) r)%bool; [|reflexivity]. replace (nmul XN (opp L) r) with (opp (nmul XN L r)); [rewrite kobj_opp; reflexivity|]. symmetry. apply sgT.
  eapply sg_b; [|eapply sg_mul; [apply sg_opp1|apply sg_const]]. reflexivity.
Qed.
Lemma div_opp (x O : XN) : (exists o, O = Fin o /\ o <> 0) -> ndiv XN x (opp O) = opp (ndiv XN x O).
Proof.
  intros (o & -> & Ho). destruct x; cbn.
  - destruct (Reqb_spec (- o) 0); [lra|]. destruct (Reqb_spec o 0); [lra|]. cbn. f_equal. field. exact Ho.
  - destruct (Rltb_spec (- o) 0), (Rltb_spec o 0); try lra; reflexivity.
  - destruct (Rltb_spec (- o) 0), (Rltb_spec o 0); try lra; reflexivity.
  - reflexivity.
Qed.

(** the loading functions of the code commute with the mirror when the rotational speed is reversed and both rotors have a swirl
    ([|Lambda| < 20]); a circulation given by the user changes sign, a thrust coefficient does not *)
Theorem C151_loading : forall i minim r Ct Gamma l nCyl (t : turbine XN) R u,
  t_R t = Fin R -> 0 < R -> norm (t_U0 t) = Fin u -> 0 < u -> l <> 0 -> Rabs l < 20 ->
  update_loading minim r Ct (option_map (map opp) Gamma) (Some (opp (Fin l))) nCyl None (image i t) =
    (image i (fst (update_loading minim r Ct Gamma (Some (Fin l)) nCyl None t)), snd (update_loading minim r Ct Gamma (Some (Fin l)) nCyl None t)).
Proof.
  intros i minim r Ct Ga l n t R u ER HR EU Hu H0 Hl. unfold update_loading. change (t_U0 (image i t)) with (mir i (t_U0 t)). rewrite m_norm.
  change (t_R (image i t)) with (t_R t). rewrite EU, ER, load_interp_opp.
  unfold mbind, mlift, massign, mraise. destruct (load_interp (N := XN) (Fin R) r Ct Ga n) as [[[r' c'] g']|e]; [|reflexivity].
  assert (EO : ndiv XN (nmul XN (opp (Fin l)) (Fin u)) (Fin R) = opp (ndiv XN (nmul XN (Fin l) (Fin u)) (Fin R))).
  { apply sgT. eapply sg_div; [|apply sg_const]. eapply sg_b; [|eapply sg_mul; [apply sg_opp1|apply sg_const]]. reflexivity. }
  rewrite EO. pose proof (omega_rev R u l HR Hu H0 Hl) as HO. cbv zeta in HO. set (Om := ndiv XN (nmul XN (Fin l) (Fin u)) (Fin R)) in *. clearbody Om.
  destruct HO as (H1 & H2 & H3 & H4 & H5 & H6 & H7). destruct c' as [c|].
  - match goal with |- context [let* rr := need r' in WakeVorticityFromCt (N := XN) minim rr c (Fin R) (Fin u) (opp Om)] => idtac end.
    assert (HW : wake_rev (let* rr := need r' in WakeVorticityFromCt (N := XN) minim rr c (Fin R) (Fin u) Om) (let* rr := need r' in WakeVorticityFromCt (N := XN) minim rr c (Fin R) (Fin u) (opp Om))).
    { destruct r' as [rr|]; [|reflexivity]. cbn [need Num.bind]. unfold WakeVorticityFromCt. rewrite H1, H2, H3, H4, H5, H6, circ_opp.
      set (vk := CirculationFromPrescribedCt minim _ c (Fin l) true).
      replace (map (fun k => ndiv XN (nmul XN (nmul XN k (npi XN)) (sq (Fin u : XN))) (opp Om)) vk) with (map opp (map (fun k => ndiv XN (nmul XN (nmul XN k (npi XN)) (sq (Fin u : XN))) Om) vk)).
      - apply discr_rev.
      - rewrite map_map. apply map_ext. intros k. symmetry. apply div_opp, H7. }
    destruct (let* rr := need r' in WakeVorticityFromCt (N := XN) minim rr c (Fin R) (Fin u) Om) as [w|e], (let* rr := need r' in WakeVorticityFromCt (N := XN) minim rr c (Fin R) (Fin u) (opp Om)) as [w'|e']; cbn [wake_rev] in HW; try contradiction; [|subst e'; reflexivity].
    destruct HW as (W1 & W2 & W3). rewrite W1, W2, W3. reflexivity.
  - destruct g' as [g|]; cbn [option_map]; [|reflexivity].
    assert (HW : wake_rev (let* rr := need r' in WakeVorticityFromGamma (N := XN) rr g (Fin R) (Fin u) Om) (let* rr := need r' in WakeVorticityFromGamma (N := XN) rr (map opp g) (Fin R) (Fin u) (opp Om))).
    { destruct r' as [rr|]; [|reflexivity]. cbn [need Num.bind]. unfold WakeVorticityFromGamma. rewrite H1, H2, H3, H4, H5, H6. apply discr_rev. }
    destruct (let* rr := need r' in WakeVorticityFromGamma (N := XN) rr g (Fin R) (Fin u) Om) as [w|e], (let* rr := need r' in WakeVorticityFromGamma (N := XN) rr (map opp g) (Fin R) (Fin u) (opp Om)) as [w'|e']; cbn [wake_rev] in HW; try contradiction; [|subst e'; reflexivity].
    destruct HW as (W1 & W2 & W3). rewrite W1, W2, W3. reflexivity.
Qed.
(** ** C151 *)
(** the kernels: the straight root vortex off its axis, the root vortex of a skewed wake at any point ([m] is the tangent of the skew angle, and changes
    sign), and the longitudinal vorticity of a straight wake at any point, whatever routine computes the complete integrals of the third kind *)
Theorem C151_kernels : forall G p, (~ onaxis p -> vl_semiinf_straight_u (N := XN) (opp G) false (flip3 p) = flip3 (vl_semiinf_straight_u G false p)) /\
  (forall m, neqb XN m (nZ XN 0) = false -> svc_root_u (N := XN) (opp G) (opp m) false [flip3 p] = mirrored_result cX (svc_root_u G m false [p])) /\
  (forall PIb R, 0 < R -> vc_longi_u_gen (N := XN) PIb (opp G) (Fin R) false [flip3 p] = map flip3 (vc_longi_u_gen PIb G (Fin R) false [p])).
Proof.
  intros G p. split; [apply s_root1|]. split.
  - intros m Hm. apply (s_svroot G m [p]). left. exact Hm.
  - intros PIb R HR. apply (s_longi PIb G R [p] HR).
Qed.
(** what is asked of the rotor turning the other way in the mirror is the mirror image of what is asked of the rotor *)
Theorem C151_query_partial : forall (i : coord) (t : turbine XN) (o : opts XN) (pts : list pt), sized t -> sided t -> swirl_ok t o pts ->
  compute_u (image i t) o (map (mir i) pts) = (image i (fst (compute_u t o pts)), mirrored_result i (snd (compute_u t o pts))).
Proof. exact s_compute. Qed.
Definition obj_image (i : coord) (x : @obj XN) : @obj XN := match x with OWT t => OWT (image i t) | OOther => OOther end.
Definition farm_swirl (h : heap XN) (f : farm) (o : opts XN) (pts : list pt) : Prop :=
  forall k t, In k f -> nth_error h k = Some (OWT t) -> sized t /\ sided t /\ swirl_ok t o pts.
Lemma query_swirl t o pts : sized t /\ sided t /\ swirl_ok t o pts -> sized (fst (compute_u t o pts)) /\ sided (fst (compute_u t o pts)) /\ swirl_ok (fst (compute_u t o pts)) o pts.
Proof. intros (H1 & H2 & H3). split; [exact H1|]. split; [left; discriminate|exact H3]. Qed.
Lemma farm_image i o pts : forall f h u, farm_swirl h f (farm_opts o) pts ->
  farm_loop (map (obj_image i) h) f o (map (mir i) pts) (map (mir i) u) = (map (obj_image i) (fst (farm_loop h f o pts u)), mirrored_result i (snd (farm_loop h f o pts u))).
Proof.
  induction f as [|k f IH]; intros h u HA; [reflexivity|]. cbn [farm_loop]. rewrite nth_error_map.
  destruct (nth_error h k) as [[t|]|] eqn:E; [|reflexivity..]. cbn [option_map obj_image].
  pose proof (HA k t (or_introl eq_refl) E) as A1. rewrite (C151_query_partial i t (farm_opts o) pts) by tauto.
  pose proof (query_swirl t (farm_opts o) pts A1) as HQ.
  destruct (compute_u t (farm_opts o) pts) as [t' [us|e]]; cbn [fst snd mirrored_result] in *.
  - change (OWT (image i t')) with (obj_image i (OWT t')). rewrite upd_map'. rewrite <- IH.
    + f_equal. apply map2_map_lr. intros; apply m_vadd.
    + intros j s Hj Es. apply nth_upd' in Es. destruct Es as [Es|[-> Es]]; [apply (HA j s); [right; exact Hj|exact Es]|]. inversion Es; subst s. exact HQ.
  - change (OWT (image i t')) with (obj_image i (OWT t')). rewrite upd_map'. reflexivity.
Qed.
Theorem C151_farm_partial : forall (i : coord) (h : heap XN) (f : farm) (o : opts XN) U0 pts, farm_swirl h f (farm_opts o) pts ->
  velocity_field (map (obj_image i) h) f o (option_map (mir i) U0) (map (mir i) pts) =
    (map (obj_image i) (fst (velocity_field h f o U0 pts)), mirrored_result i (snd (velocity_field h f o U0 pts))).
Proof.
  intros i h f o U0 pts HA. unfold velocity_field.
  replace (fzero (map (mir i) pts)) with (map (mir i) (fzero (N := XN) pts)) by (unfold fzero; rewrite !map_map; apply map_ext; intros; apply mir_zero).
  rewrite farm_image by assumption. destruct (farm_loop h f o pts (fzero pts)) as [h' [u|e]]; cbn [fst snd Num.bind mirrored_result]; [|reflexivity]. f_equal. f_equal.
  destruct U0 as [U|]; cbn [option_map]; [|reflexivity]. apply map_com. intros a. apply m_vadd.
Qed.
(** on the axis of a straight root vortex the two velocities are infinite, and in the wrong directions: the sideways velocity is not a number
    and the other one is infinite with the sign of the circulation, which the mirror should have kept *)
Theorem C151_axis_refuted : forall G z, G <> 0 -> 0 < z ->
  let p : pt := (Fin 0, Fin 0, Fin z) in
  flip3 p = p /\ snd (fst (vl_semiinf_straight_u (N := XN) (Fin G) false p)) = (if Rltb 0 G then PInf else MInf) /\
  snd (fst (vl_semiinf_straight_u (N := XN) (Fin (- G)) false (flip3 p))) = (if Rltb 0 G then MInf else PInf).
Proof.
  intros G z HG Hz p. split; [apply flip3_axis|]. assert (EF : flip3 p = p) by apply flip3_axis. assert (EP : to_polar (N := XN) p = (Fin 0, Fin 0, Fin z)) by (unfold p; rewrite polar_axis, atan2_00; reflexivity). rewrite EF, !vl_polar, !EP. unfold vl_semiinf_straight_u_polar, vl_straight_cart_of_polar.
  assert (K : forall g, g <> 0 -> nmul XN (ncos XN (Fin 0)) (nmul XN (ndiv XN (Fin g) (nmul XN (nmul XN (nZ XN 4) (npi XN)) (Fin 0))) (nadd XN (nZ XN 1) (ndiv XN (Fin z) (nsqrt XN (nadd XN (sq (Fin 0 : XN)) (sq (Fin z : XN))))))) = if Rltb 0 g then PInf else MInf).
  { intros g Hg. assert (E1 : nsqrt XN (nadd XN (sq (Fin 0 : XN)) (sq (Fin z : XN))) = Fin z).
    { cbn. destruct (Rltb_spec (0 * 0 + z * z) 0); [nra|]. f_equal. replace (0 * 0 + z * z) with (z * z) by ring. apply sqrt_square. lra. }
    rewrite E1. assert (E2 : nadd XN (nZ XN 1) (ndiv XN (Fin z) (Fin z)) = Fin 2) by (cbn; destruct (Reqb_spec z 0); [lra|]; cbn; f_equal; field; lra). rewrite E2.
    assert (E3 : nmul XN (nmul XN (nZ XN 4) (npi XN)) (Fin 0) = Fin 0) by (cbn; f_equal; ring). rewrite E3.
    cbn. destruct (Reqb_spec 0 0); [|lra]. rewrite cos_0. unfold xinf_mul.
    destruct (Rltb_spec 0 g); cbn; [unfold xinf_mul; destruct (Rltb_spec 0 2); [|lra]; cbn; unfold xinf_mul; destruct (Rltb_spec 0 1); [reflexivity|lra]|].
    destruct (Rltb_spec g 0); [|lra]. cbn. unfold xinf_mul. destruct (Rltb_spec 0 2); [|lra]. cbn. unfold xinf_mul. destruct (Rltb_spec 0 1); [reflexivity|lra]. }
  assert (EZ : forall g, g <> 0 -> neqb XN (Fin g) (nZ XN 0) = false) by (intros g Hg; apply Reqb_false; exact Hg).
  rewrite !EZ by lra. cbn [fst snd]. rewrite !K by lra. split; [reflexivity|]. destruct (Rltb_spec 0 (- G)), (Rltb_spec 0 G); try lra; reflexivity.
Qed.
(** with [Lambda >= 20] the code gives the rotor no swirl, but the rotor turning the other way ([- Lambda]) always has one *)
Theorem C151_loading_refuted : forall i minim R u l c (t : turbine XN), t_R t = Fin R -> 0 < R -> norm (t_U0 t) = Fin u -> 0 < u -> 20 <= l ->
  t_gl (fst (update_loading (N := XN) minim (Some [Fin R]) (Some [Fin c]) None (Some (Fin l)) None None t)) = Some None /\
  exists gl, t_gl (fst (update_loading (N := XN) minim (Some [Fin R]) (Some [Fin c]) None (Some (Fin (- l))) None None (image i t))) = Some (Some [gl]).
Proof.
  intros i minim R u l c t ER HR EU Hu Hl.
  assert (K : forall x, x <> 0 -> omega_fix (N := XN) (ndiv XN (nmul XN (Fin x) (Fin u)) (Fin R)) = ndiv XN (nmul XN (Fin x) (Fin u)) (Fin R) /\
    ndiv XN (nmul XN (ndiv XN (nmul XN (Fin x) (Fin u)) (Fin R)) (Fin R)) (Fin u) = Fin x).
  { intros x Hx. cbn. destruct (Reqb_spec R 0); [lra|]. cbn. split; [reflexivity|]. destruct (Reqb_spec u 0); [lra|]. f_equal. field. lra. }
  assert (D : forall G O b, exists w, WakeVorticityFromCirculation_Discr (N := XN) [Fin R] [G] (Fin R) (Fin u) O (nZ XN 1) b true true None = Ok w /\
    (b = false -> w_gl w = None) /\ (b = true -> exists g, w_gl w = Some [g])).
  { intros G O b. unfold WakeVorticityFromCirculation_Discr. cbn [default_r_cyl].
    match goal with |- context [if ?b then Err (ENameError _) else _] => assert (EB : b = false) by (apply Rltb_false; lra); rewrite EB end.
    match goal with |- context [if ?b then Err (EException _) else _] => assert (EB' : b = false) by (apply Reqb_false; lra); rewrite EB' end.
    eexists. split; [reflexivity|]. split; intros ->; cbn [w_gl]; [reflexivity|]. eexists. reflexivity. }
  assert (E : forall x (t' : turbine XN), x <> 0 -> t_R t' = Fin R -> norm (t_U0 t') = Fin u ->
    exists G w, WakeVorticityFromCirculation_Discr (N := XN) [Fin R] [G] (Fin R) (Fin u) (ndiv XN (nmul XN (Fin x) (Fin u)) (Fin R)) (nZ XN 1) (nlt XN (Fin x) (nZ XN 20)) true true None = Ok w /\
    t_gl (fst (update_loading (N := XN) minim (Some [Fin R]) (Some [Fin c]) None (Some (Fin x)) None None t')) = Some (w_gl w)).
  { intros x t' Hx ER' EU'. destruct (K x Hx) as [K1 K2]. unfold update_loading. rewrite ER', EU'. unfold mbind, mlift, massign. cbn [load_interp need Num.bind].
    unfold WakeVorticityFromCt. rewrite K1, K2. set (b := nlt XN (Fin x) (nZ XN 20)).
    assert (EC : exists k, CirculationFromPrescribedCt minim (map (fun r => ndiv XN r (Fin R)) [Fin R]) [Fin c] (Fin x) b = [k]) by (unfold CirculationFromPrescribedCt; destruct b; eexists; reflexivity).
    destruct EC as [k ->]. cbn [map]. match goal with |- context [WakeVorticityFromCirculation_Discr _ [?G] _ _ ?O _ _ _ _ _] => destruct (D G O b) as (w & EW & _); exists G, w end.
    rewrite EW. split; reflexivity. }
  split.
  - destruct (E l t) as (G & w & EW & ->); [lra|exact ER|exact EU|]. destruct (D G (ndiv XN (nmul XN (Fin l) (Fin u)) (Fin R)) (nlt XN (Fin l) (nZ XN 20))) as (w' & EW' & H & _).
    rewrite EW in EW'. injection EW' as <-. f_equal. apply H. apply Rltb_false. lra.
  - destruct (E (- l) (image i t)) as (G & w & EW & EG); [lra|exact ER|change (t_U0 (image i t)) with (mir i (t_U0 t)); rewrite m_norm; exact EU|].
    destruct (D G (ndiv XN (nmul XN (Fin (- l)) (Fin u)) (Fin R)) (nlt XN (Fin (- l)) (nZ XN 20))) as (w' & EW' & _ & H).
    rewrite EW in EW'. injection EW' as <-. destruct H as [g Hg]; [apply Rltb_true; lra|]. exists g. rewrite EG, Hg. reflexivity.
Qed.

(** ** Example: a rotor with swirl (tangential and longitudinal vorticity, root vortex), seen beside its axis *)
Definition ex_swirl (c : R) : turbine XN :=
  set_chi (set_Gr (set_gl (set_gt (new_turbine (N := XN) (Fin 2) (lift3 (1, 0, 80)) (lift3 (1, 0, 0)) (lift3 (0, 0, 1)) (lift3 (8, 0, 0)) None None "" false "VC") (Some [Fin (-1)]))
    (Some [Fin (-1)])) (Some (Fin 3))) (Fin c).
Lemma frame13 : frame (1, 0, 0) (0, 0, 1).
Proof. unfold frame, unit3, perp, inner, length3, px, py, pz; cbn [fst snd]. repeat split; try (f_equal; ring); ring. Qed.
Lemma ex_c2g c : T_c2g (ex_swirl c) = liftM ((0, 0, 1), (1, 0, 0), (0, 1, 0)).
Proof.
  change (T_c2g (ex_swirl c)) with (T_c2g (new_turbine (N := XN) (Fin 2) (lift3 (1, 0, 80)) (lift3 (1, 0, 0)) (lift3 (0, 0, 1)) (lift3 (8, 0, 0)) None None "" false "VC")).
  rewrite (WF_c2g _ _ _ _ _ _ _ (WF_new 2 (1, 0, 80) (1, 0, 0) (0, 0, 1) (8, 0, 0) None None "" false "VC" frame13)). f_equal.
  unfold c2g, mmul, mcols, RotMat_AxisAngle, cross, mvec, mtr. cbn. rewrite cos_0, sin_0. repeat f_equal; ring.
Qed.
Example C151_nonvacuous : forall (o := {| o_only_ind := false; o_longi := true; o_tang := true; o_root := true; o_no_wake := false; o_ground := None; o_Model := None; o_far := nZ XN 6 |} : opts XN),
  (* not skewed *)
  (let t := ex_swirl 0 in sized t /\ sided t /\ swirl_ok t o [lift3 (5, 1, 80); lift3 (1, 0, 81)] /\ rotor_points t o [lift3 (5, 1, 80); lift3 (1, 0, 81)] = [[lift3 (1, 0, 4); lift3 (0, 1, 0)]]) /\
  farm_swirl [OWT (ex_swirl 0); OOther; OWT (ex_swirl 0)] [0; 2]%nat o [lift3 (5, 1, 80); lift3 (1, 0, 81)] /\
  (* skewed, without the longitudinal vorticity: any points *)
  (forall pts, let t := set_gl (ex_swirl (PI / 4)) None in skewed (chi_now t) = true /\ sized t /\ sided t /\ swirl_ok t o pts) /\
  (* the hypotheses of the loading theorem *)
  (t_R (ex_swirl 0) = Fin 2 /\ norm (N := XN) (t_U0 (ex_swirl 0)) = Fin 8 /\ Rabs 7 < 20).
Proof.
  intros o. assert (ER : rotor_points (ex_swirl 0) o [lift3 (5, 1, 80); lift3 (1, 0, 81)] = [[lift3 (1, 0, 4); lift3 (0, 1, 0)]]).
  { unfold rotor_points. rewrite ex_c2g. change (t_rhub (ex_swirl 0)) with (lift3 (1, 0, 80)). change (t_ground (ex_swirl 0)) with false. cbn [map o_ground o]. rewrite !transform_T_lift.
    unfold ylist. cbn [map]. rewrite !shift_lift. do 2 f_equal; [|f_equal]; f_equal; cbn; unfold sub3, px, py, pz; cbn; repeat f_equal; ring. }
  assert (A : let t := ex_swirl 0 in sized t /\ sided t /\ swirl_ok t o [lift3 (5, 1, 80); lift3 (1, 0, 81)]).
  { intros t. split; [split; [exists 2; split; [reflexivity|lra]|exact I]|]. split; [left; discriminate|]. split; intros _.
    - left. unfold t, ex_swirl, chi_now, set_chi. cbn [t_chi set_chif]. unfold skewed. cbn. apply Rltb_false. rewrite Rabs_R0. lra.
    - right. unfold t. rewrite ER. repeat constructor; intros [z H]; unfold lift3, px, py, pz in H; cbn [fst snd] in H; inversion H; lra. }
  split; [cbv zeta; split; [apply A|split; [apply A|split; [apply A|exact ER]]]|]. split; [|split].
  - intros k t [<-|[<-|[]]] E; inversion E; subst t; exact A.
  - intros pts t. assert (K : skewed (chi_now t) = true).
    { unfold t, ex_swirl, chi_now, set_chi. cbn [t_chi set_chif set_gl]. unfold skewed. cbn. apply Rltb_true. pose proof PI2_1. rewrite Rabs_pos_eq; lra. }
    split; [exact K|]. split; [split; [exists 2; split; [reflexivity|lra]|exact I]|]. split; [left; discriminate|]. split; intros _; [right; reflexivity|left]. split; [exact K|].
    change (chi_now t) with (Fin (PI / 4) : XN). assert (HC : 0 < cos (PI / 4)) by (pose proof PI_RGT_0; apply cos_gt_0; lra). assert (E : ntan XN (Fin (PI / 4)) = Fin 1) by (cbn; destruct (Reqb_spec (cos (PI / 4)) 0); [lra|]; rewrite tan_PI4; reflexivity). rewrite E. apply Reqb_false. lra.
  - split; [reflexivity|]. split; [|rewrite Rabs_pos_eq; lra]. apply ex_norm. lra.
Qed.
