(** * C147: the choice of units *)
From Coq Require Import Reals Lra ZArith List Bool String Lia.
From Verif Require Import Num NumR NumX M_Elliptic M_Line M_Doublet M_Cylinder M_Misc M_Skewed M_Solver M_Turbine M_Farm L_Units.
Import ListNotations.
Local Open Scope R_scope.
Local Open Scope list_scope.
Local Notation len := List.length.

Definition scale2 (w : R) (p : XN * XN) : XN * XN := (scale w (fst p), scale w (snd p)).
(** ** Lists *)
Lemma gather_map {A B} (f : A -> B) : forall m l, gather m (map f l) = map f (gather m l).
Proof. induction m as [|[] m IH]; intros [|a l]; cbn; auto. f_equal. apply IH. Qed.
Lemma scatter_map {A B} (f : A -> B) : forall m v d, scatter m (map f v) (map f d) = map f (scatter m v d).
Proof. induction m as [|[] m IH]; intros v [|a d]; cbn; auto; [destruct v; cbn; auto; f_equal; apply IH|f_equal; apply IH]. Qed.
Lemma map2_map_l {A A' B C C'} (f : A' -> B -> C') (f0 : A -> B -> C) (g : A -> A') (h : C -> C') : (forall a b, f (g a) b = h (f0 a b)) ->
  forall l m, map2 f (map g l) m = map h (map2 f0 l m).
Proof. intros E. induction l as [|a l IH]; intros [|b m]; cbn; auto. rewrite E, IH. reflexivity. Qed.
Lemma map2_map_lr {A A' B B' C C'} (f : A' -> B' -> C') (f0 : A -> B -> C) (g : A -> A') (k : B -> B') (h : C -> C') : (forall a b, f (g a) (k b) = h (f0 a b)) ->
  forall l m, map2 f (map g l) (map k m) = map h (map2 f0 l m).
Proof. intros E. induction l as [|a l IH]; intros [|b m]; cbn; auto. rewrite E, IH. reflexivity. Qed.
Lemma map_com {A A' B B'} (f : A -> B) (f' : A' -> B') (k : A -> A') (h : B -> B') : (forall a, f' (k a) = h (f a)) -> forall l, map f' (map k l) = map h (map f l).
Proof. intros E l. rewrite !map_map. apply map_ext, E. Qed.
Lemma scale3_zero w : 0 < w -> scale3 w (nZ XN 0, nZ XN 0, nZ XN 0) = (nZ XN 0, nZ XN 0, nZ XN 0).
Proof. intros H. unfold scale3. rewrite <- !(proj2 (sc_zero w H)). reflexivity. Qed.
Lemma pair2_inj {A B} (a a' : A) (b b' : B) : (a, b) = (a', b') -> a = a' /\ b = b'.
Proof. intros H. inversion H. auto. Qed.
Lemma pair5_inj {A B C D E} (a a' : A) (b b' : B) (c c' : C) (d d' : D) (e e' : E) : (a, b, c, d, e) = (a', b', c', d', e') -> a = a' /\ b = b' /\ c = c' /\ d = d' /\ e = e'.
Proof. intros H. inversion H. auto. Qed.
Ltac leaf := first [apply sc_intro; assumption | apply sc_intro; wpos].

Section Units.
  Variables l v : R.
  Hypothesis (Hl : 0 < l) (Hv : 0 < v).
  Notation pt := (XN * XN * XN)%type.
  Let L1 x : sc l x (scale l x) := sc_intro l x Hl.
  Let V1 x : sc v x (scale v x) := sc_intro v x Hv.
  Hint Resolve L1 V1 : core units.
  Ltac uu := units l v.
  Ltac uw := eapply sc_w; [|uu]; weq.

  (** *** the straight cylinder *)
  Lemma u_r p : vc_r (scale3 l p) = scale l (vc_r p).
  Proof. destruct p as [[x y] z]. unfold vc_r, scale3. apply (fun H : sc l _ _ => proj2 H). uw. Qed.
  Lemma u_isaxis R r : vc_isaxis (scale l R) (scale l r) = vc_isaxis R r.
  Proof. unfold vc_isaxis. eapply sc_lt; [uu|uu|weq]. Qed.
  Lemma u_isrim R r z : vc_isrim (scale l R) (scale l r) (scale l z) = vc_isrim R r z.
  Proof. unfold vc_isrim. f_equal; (eapply sc_lt; [uu|uu|weq]). Qed.
  Lemma u_normal R rz : vc_normal (scale l R) (scale2 l rz) = vc_normal R rz.
  Proof. destruct rz as [r z]. unfold vc_normal, scale2. cbn [fst snd]. rewrite u_isaxis, u_isrim. reflexivity. Qed.
  Lemma u_eps2 e z : sc (l * l) (vc_eps2 e z) (vc_eps2 (scale l e) (scale l z)).
  Proof. unfold vc_eps2. eapply sc_if; [eapply sc_lt0; uu|apply sc_zero; nra|uu|reflexivity]. Qed.
  Lemma u_k2 e R r z : sc 1 (vc_k2 e R r z) (vc_k2 (scale l e) (scale l R) (scale l r) (scale l z)).
  Proof. pose proof (u_eps2 e z). unfold vc_k2. eapply sc_if; [eapply sc_eqb0; uu|uw|uu|weq]. Qed.
  Lemma u_k02 e R r z : sc 1 (vc_k02 e R r z) (vc_k02 (scale l e) (scale l R) (scale l r) (scale l z)).
  Proof. pose proof (u_eps2 e z). unfold vc_k02. eapply sc_if; [eapply sc_eqb0; uu|uw|uu|weq]. Qed.
  Lemma u_nm e R rz : vc_nm (scale l e) (scale l R) (scale2 l rz) = vc_nm e R rz.
  Proof. destruct rz as [r z]. unfold vc_nm, scale2. cbn [fst snd]. rewrite (sc_same _ _ (u_k2 e R r z)), (sc_same _ _ (u_k02 e R r z)). reflexivity. Qed.
  Lemma u_T1 e R r z : sc 1 (vc_T1 e R r z) (vc_T1 (scale l e) (scale l R) (scale l r) (scale l z)).
  Proof.
    unfold vc_T1. eapply sc_if; [f_equal; [f_equal; eapply sc_eqb0; uu|eapply sc_ge0; uu]|uw| |reflexivity].
    eapply sc_if; [eapply sc_lt; [uu|uu|weq]|uu| |reflexivity]. eapply sc_if; [eapply sc_eqb; [uu|uu|weq]|uu|uu|reflexivity].
  Qed.
  Lemma u_reg g e R rz PI : vc_reg (scale v g) (scale l e) (scale l R) (scale2 l rz) PI = scale2 v (vc_reg g e R rz PI).
  Proof.
    destruct rz as [r z]. unfold vc_reg, scale2. cbn [fst snd]. rewrite (sc_same _ _ (u_k2 e R r z)). pose proof (u_T1 e R r z) as HT.
    replace (vc_fixPI (scale l R) (scale l r) PI) with (vc_fixPI R r PI).
    2:{ unfold vc_fixPI. rewrite (sc_eqb l l r (scale l r) R (scale l R)) by auto. reflexivity. }
    f_equal; apply (fun H : sc v _ _ => proj2 H); uw.
  Qed.
  Lemma u_special g R rz : vc_special (scale v g) (scale l R) (scale2 l rz) = scale2 v (vc_special g R rz).
  Proof.
    destruct rz as [r z]. unfold vc_special, scale2. cbn [fst snd]. rewrite u_isrim. destruct (vc_isrim R r z); cbn [fst snd]; f_equal;
    try (apply (proj2 (sc_zero v Hv))); unfold vc_axis_uz; apply (fun H : sc v _ _ => proj2 H); uw.
  Qed.
  Lemma u_rz (pts : list pt) : map (fun p => (vc_r p, snd p)) (map (scale3 l) pts) = map (scale2 l) (map (fun p => (vc_r p, snd p)) pts).
  Proof. rewrite !map_map. apply map_ext. intros [[x y] z]. unfold scale2. cbn [fst snd]. rewrite u_r. reflexivity. Qed.
  Lemma u_tang_polar PIb g R e pts : vc_tang_polar_gen PIb (scale v g) (scale l R) (scale l e) (map (scale3 l) pts) = map (scale2 v) (vc_tang_polar_gen PIb g R e pts).
  Proof.
    unfold vc_tang_polar_gen. rewrite u_rz. set (rz := map (fun p : pt => (vc_r p, snd p)) pts).
    assert (EM : map (vc_normal (scale l R)) (map (scale2 l) rz) = map (vc_normal R) rz) by (rewrite map_map; apply map_ext; intros; apply u_normal).
    rewrite EM, gather_map. rewrite !map_map. rewrite (map_ext (fun x => vc_nm (scale l e) (scale l R) (scale2 l x)) (vc_nm e R)) by (intros; apply u_nm).
    rewrite (map2_map_l _ (vc_reg g e R) (scale2 l) (scale2 v)) by (intros; apply u_reg).
    rewrite (map_ext (fun x => vc_special (scale v g) (scale l R) (scale2 l x)) (fun x => scale2 v (vc_special g R x))) by (intros; apply u_special).
    rewrite <- (map_map (vc_special g R) (scale2 v)). apply scatter_map.
  Qed.
  Lemma u_cart p u : cart_of_polar2 (scale3 l p) (scale2 v u) = scale3 v (cart_of_polar2 p u).
  Proof.
    destruct p as [[x y] z], u as [a b]. unfold cart_of_polar2, scale3, scale2. cbn [fst snd]. 
    rewrite (sc_same _ _ (sc_atan2 l l y (scale l y) x (scale l x) (L1 y) (L1 x) eq_refl)).
    f_equal; f_equal; apply (fun H : sc v _ _ => proj2 H); uw.
  Qed.
  Lemma u_tang PIb g R e pts : vc_tang_u_gen PIb (scale v g) (scale l R) (scale l e) (map (scale3 l) pts) = map (scale3 v) (vc_tang_u_gen PIb g R e pts).
  Proof. unfold vc_tang_u_gen. rewrite u_tang_polar. apply map2_map_lr. intros; apply u_cart. Qed.
  (** *** longitudinal vorticity *)
  Lemma u_longi_nm R rz : vc_longi_nm (scale l R) (scale2 l rz) = vc_longi_nm R rz.
  Proof.
    destruct rz as [r z]. unfold vc_longi_nm, scale2. cbn [fst snd].
    f_equal; (refine (sc_same _ _ _); uw).
  Qed.
  Lemma u_longi_upsi g R rz PI : vc_longi_upsi (scale v g) (scale l R) (scale2 l rz) PI = scale v (vc_longi_upsi g R rz PI).
  Proof.
    destruct rz as [r z]. unfold vc_longi_upsi, scale2. cbn [fst snd]. apply (fun H : sc v _ _ => proj2 H).
    set (m := ndiv XN (nmul XN (nmul XN (nZ XN 4) r) R) _). set (m' := ndiv XN (nmul XN (nmul XN (nZ XN 4) (scale l r)) (scale l R)) _).
    assert (Hm : sc 1 m m') by (unfold m, m'; uw). rewrite (sc_same _ _ Hm). clearbody m. uw.
  Qed.
  Lemma u_to_polar p : to_polar (scale3 l p) = (let '(r, psi, z) := to_polar p in (scale l r, psi, scale l z)).
  Proof.
    destruct p as [[x y] z]. unfold to_polar, scale3. rewrite (sc_same _ _ (sc_atan2 l l y (scale l y) x (scale l x) (L1 y) (L1 x) eq_refl)).
    f_equal. f_equal. apply (fun H : sc l _ _ => proj2 H). uw.
  Qed.
  Lemma u_longi PIb g R pts : vc_longi_u_gen PIb (scale v g) (scale l R) false (map (scale3 l) pts) = map (scale3 v) (vc_longi_u_gen PIb g R false pts).
  Proof.
    unfold vc_longi_u_gen, vc_longi_u_polar_gen. rewrite !map_map.
    set (q := map (fun p : pt => (fst (fst (to_polar p)), snd (to_polar p))) pts).
    assert (E1 : map (fun p => (fst (fst (to_polar (scale3 l p))), snd (to_polar (scale3 l p)))) pts = map (scale2 l) q).
    { unfold q. rewrite map_map. apply map_ext. intros p. rewrite u_to_polar. destruct (to_polar p) as [[r psi] z]. reflexivity. }
    rewrite E1. rewrite (map_ext (fun x : pt => vc_longi_nm (scale l R) (fst (fst (to_polar (scale3 l x))), snd (to_polar (scale3 l x))))
                           (fun x => vc_longi_nm R (fst (fst (to_polar x)), snd (to_polar x)))).
    2:{ intros p. rewrite u_to_polar. destruct (to_polar p) as [[r psi] z]. cbn [fst snd]. exact (u_longi_nm R (r, z)). }
    rewrite (map2_map_l _ (vc_longi_upsi g R) (scale2 l) (scale v)) by (intros; apply u_longi_upsi).
    generalize (map2 (vc_longi_upsi g R) q (PIb (map (fun x : pt => vc_longi_nm R (fst (fst (to_polar x)), snd (to_polar x))) pts))). clear q E1.
    induction pts as [|p pts IH]; intros [|u us]; cbn [map map2]; auto. rewrite IH. f_equal. rewrite u_to_polar. destruct (to_polar p) as [[r psi] z]. unfold scale3.
    f_equal; [f_equal|]; apply (fun H : sc v _ _ => proj2 H); try uw. apply sc_zero, Hv.
  Qed.
  (** *** straight root vortex *)
  Let LV1 x : sc (l * v) x (scale (l * v) x) := sc_intro (l * v) x (Rmult_lt_0_compat _ _ Hl Hv).
  Hint Resolve LV1 : core units.
  Lemma u_root_straight G p : vl_semiinf_straight_u (scale (l * v) G) false (scale3 l p) = scale3 v (vl_semiinf_straight_u G false p).
  Proof.
    destruct p as [[x y] z]. unfold vl_semiinf_straight_u, vl_semiinf_straight_u_polar, vl_straight_cart_of_polar, scale3.
    rewrite (sc_same _ _ (sc_atan2 l l y (scale l y) x (scale l x) (L1 y) (L1 x) eq_refl)). rewrite (sc_eqb0 (l * v) G (scale (l * v) G)) by auto.
    destruct (neqb XN G (nZ XN 0)); (f_equal; [f_equal|]); apply (fun H : sc v _ _ => proj2 H); try (apply sc_zero, Hv); try uw.
    - assert (Z0 : sc (v / l) (nZ XN 0) (nZ XN 0)) by (apply sc_zero; wpos). eapply sc_w; [|eapply sc_mul; [uu|exact Z0]]. weq.
    - assert (Z0 : sc (v / l) (nZ XN 0) (nZ XN 0)) by (apply sc_zero; wpos). eapply sc_w; [|eapply sc_mul; [uu|exact Z0]]. weq.
    - assert (Z0 : sc (v / l) (nZ XN 0) (nZ XN 0)) by (apply sc_zero; wpos). eapply sc_w; [|eapply sc_mul; [uu|exact Z0]]. weq.
  Qed.
  (** *** skewed cylinder *)
  Lemma u_trapz (f f' : XN -> XN) : (forall th, sc v (f th) (f' th)) -> forall th, sc v (trapz (map f th) th) (trapz (map f' th) th).
  Proof.
    intros H. induction th as [|a [|b th] IH]; [apply sc_zero, Hv..|]. cbn [map trapz] in *. pose proof (H a). pose proof (H b).
    eapply sc_w; [|eapply sc_add; [uu|exact IH|weq]]. weq.
  Qed.
  Lemma u_svc_int g R m r psi z ai ai' bi bi' th : sc (l * l) (ai th) (ai' th) -> sc l (bi th) (bi' th) ->
    sc v (svc_int g R m r psi z ai bi th) (svc_int (scale v g) (scale l R) m (scale l r) psi (scale l z) ai' bi' th).
  Proof.
    intros Ha Hb. unfold svc_int, svc_D.
    assert (HA : sc (l * l) (svc_a R r psi z th) (svc_a (scale l R) (scale l r) psi (scale l z) th)) by (unfold svc_a; uw).
    assert (HB : sc l (svc_b R m r psi z th) (svc_b (scale l R) m (scale l r) psi (scale l z) th)) by (unfold svc_b; uw).
    uw.
  Qed.
  Lemma u_svc_tang g R m n p : svc_tang_u (scale v g) (scale l R) m n false (scale3 l p) = scale3 v (svc_tang_u g R m n false p).
  Proof.
    unfold svc_tang_u. rewrite u_to_polar. destruct (to_polar p) as [[r psi] z]. unfold svc_tang_u_polar, scale3.
    f_equal; [f_equal|]; apply (fun H : sc v _ _ => proj2 H); unfold svc_trap; apply u_trapz; intros th; apply u_svc_int; uw.
  Qed.
  Lemma u_svc_longi g R m n p : svc_longi_u (scale v g) (scale l R) m n false (scale3 l p) = scale3 v (svc_longi_u g R m n false p).
  Proof.
    unfold svc_longi_u. rewrite u_to_polar. destruct (to_polar p) as [[r psi] z]. unfold svc_longi_u_polar, scale3.
    assert (E1 : ndiv XN (scale l r) (scale l R) = ndiv XN r R) by (refine (sc_same _ _ _); uw).
    assert (E2 : ndiv XN (scale l z) (scale l R) = ndiv XN z R) by (refine (sc_same _ _ _); uw). rewrite E1, E2. clear E1 E2.
    f_equal; [f_equal|]; apply (fun H : sc v _ _ => proj2 H); apply u_trapz; intros th; unfold svl_den; uw.
  Qed.
  (** *** self-similar model *)
  Lemma u_ss g R la et p : ss_u (scale v g) (scale l R) la et (scale3 l p) = scale v (ss_u g R la et p).
  Proof.
    destruct p as [[x y] z]. unfold ss_u, scale3. rewrite (sc_gt0 l z (scale l z)) by auto. destruct (nlt XN (nZ XN 0) z); [apply (proj2 (sc_zero v Hv))|].
    apply (fun H : sc v _ _ => proj2 H). uw.
  Qed.
  (** *** superpositions *)
  Lemma u_vadd w a b : 0 < w -> vadd (scale3 w a) (scale3 w b) = scale3 w (vadd a b).
  Proof.
    intros Hw. destruct a as [[a1 a2] a3], b as [[b1 b2] b3]. unfold vadd, scale3.
    f_equal; [f_equal|]; apply (fun H : sc w _ _ => proj2 H); (eapply sc_add; [apply sc_intro, Hw|apply sc_intro, Hw|reflexivity]).
  Qed.
  Lemma u_fadd a b : fadd (map (scale3 v) a) (map (scale3 v) b) = map (scale3 v) (fadd a b).
  Proof. apply map2_map_lr. intros. apply u_vadd, Hv. Qed.
  Lemma u_fzero pts : fzero (map (scale3 l) pts) = map (scale3 v) (fzero (N := XN) pts).
  Proof. unfold fzero. rewrite !map_map. apply map_ext. intros _. symmetry. apply scale3_zero, Hv. Qed.
  Lemma u_shift c p : shift (scale3 l c) (scale3 l p) = scale3 l (shift c p).
  Proof.
    destruct c as [[a1 a2] a3], p as [[b1 b2] b3]. unfold shift, scale3.
    f_equal; [f_equal|]; apply (fun H : sc l _ _ => proj2 H); (eapply sc_sub; [apply L1|apply L1|reflexivity]).
  Qed.
  Lemma u_ylist gr c pts : ylist gr (scale3 l c) (map (scale3 l) pts) = map (map (scale3 l)) (ylist gr c pts).
  Proof.
    unfold ylist. assert (E : map (shift (scale3 l c)) (map (scale3 l) pts) = map (scale3 l) (map (shift c) pts)).
    { rewrite !map_map. apply map_ext. intros; apply u_shift. }
    rewrite E. destruct gr; [|reflexivity]. cbn [map]. f_equal. f_equal. rewrite map_map, (map_map _ (scale3 l)). apply map_ext. intros p.
    destruct c as [[c1 c2] c3]. destruct p as [[x y] z]. unfold mirror_pt, scale3. cbn [fst snd]. f_equal. f_equal. apply (fun H : sc l _ _ => proj2 H). uw.
  Qed.
  Lemma fold_rel {A B B'} (f : B -> A -> B) (f' : B' -> A -> B') (h : B -> B') : (forall u a, f' (h u) a = h (f u a)) -> forall L u, fold_left f' L (h u) = h (fold_left f L u).
  Proof. intros E. induction L as [|a L IH]; intros u; cbn; [reflexivity|]. rewrite E. apply IH. Qed.
  Lemma fold_relm {A A' B B'} (f : B -> A -> B) (f' : B' -> A' -> B') (k : A -> A') (h : B -> B') : (forall u a, f' (h u) (k a) = h (f u a)) ->
    forall L u, fold_left f' (map k L) (h u) = h (fold_left f L u).
  Proof. intros E. induction L as [|a L IH]; intros u; cbn; [reflexivity|]. rewrite E. apply IH. Qed.
  Lemma fold_relm_in {A A' B B'} (f : B -> A -> B) (f' : B' -> A' -> B') (k : A -> A') (h : B -> B') : forall L, (forall u a, In a L -> f' (h u) (k a) = h (f u a)) ->
    forall u, fold_left f' (map k L) (h u) = h (fold_left f L u).
  Proof. induction L as [|a L IH]; intros E u; cbn; [reflexivity|]. rewrite E by (left; reflexivity). apply IH. intros; apply E; right; assumption. Qed.
  Definition cylV (c : pt * list (XN * XN)) : pt * list (XN * XN) := (scale3 l (fst c), map (fun gr => (scale v (fst gr), scale l (snd gr))) (snd c)).
  Definition cylS (c : pt * list (XN * XN * XN)) : pt * list (XN * XN * XN) := (scale3 l (fst c), map (fun gr => let '(g, R, m) := gr in (scale v g, scale l R, m)) (snd c)).
  Lemma u_abs0 g : nlt XN (nZ XN 0) (nabs XN (scale v g)) = nlt XN (nZ XN 0) (nabs XN g).
  Proof. apply (sc_gt0 v). apply sc_abs, V1. Qed.
  Lemma u_vcs_tang PIb e gr cyls pts : vcs_tang_u_gen PIb (scale l e) gr (map cylV cyls) (map (scale3 l) pts) = map (scale3 v) (vcs_tang_u_gen PIb e gr cyls pts).
  Proof.
    unfold vcs_tang_u_gen. rewrite u_fzero. apply fold_relm. intros u cyl. cbn [cylV fst snd]. rewrite u_ylist. apply fold_relm. intros u' Y. apply fold_relm. intros u'' [g R]. cbn [fst snd].
    rewrite u_abs0. destruct (nlt XN (nZ XN 0) (nabs XN g)); [|reflexivity]. rewrite u_tang. apply u_fadd.
  Qed.
  Lemma u_vcs_longi PIb gr cyls pts : vcs_longi_u_gen PIb gr (map cylV cyls) (map (scale3 l) pts) = map (scale3 v) (vcs_longi_u_gen PIb gr cyls pts).
  Proof.
    unfold vcs_longi_u_gen. rewrite u_fzero. apply fold_relm. intros u cyl. cbn [cylV fst snd]. apply fold_relm. intros u'' [g R]. cbn [fst snd].
    rewrite u_abs0. destruct (nlt XN (nZ XN 0) (nabs XN g)); [|reflexivity].
    assert (E : map (shift (scale3 l (fst cyl))) (map (scale3 l) pts) = map (scale3 l) (map (shift (fst cyl)) pts)).
    { rewrite !map_map. apply map_ext. intros; apply u_shift. }
    rewrite E, u_longi. apply u_fadd.
  Qed.
  Lemma u_svcs_tang n gr cyls pts : svcs_tang_u n gr (map cylS cyls) (map (scale3 l) pts) = map (scale3 v) (svcs_tang_u (N := XN) n gr cyls pts).
  Proof.
    unfold svcs_tang_u. rewrite u_fzero. apply fold_relm. intros u cyl. cbn [cylS fst snd]. rewrite u_ylist. apply fold_relm. intros u' Y. apply fold_relm. intros u'' [[g R] m].
    rewrite u_abs0. destruct (nlt XN (nZ XN 0) (nabs XN g)); [|reflexivity].
    rewrite (map_com (svc_tang_u g R m n false) _ (scale3 l) (scale3 v)) by (intros; apply u_svc_tang). apply u_fadd.
  Qed.
  Lemma u_svcs_longi n gr cyls pts : svcs_longi_u n gr (map cylS cyls) (map (scale3 l) pts) = map (scale3 v) (svcs_longi_u (N := XN) n gr cyls pts).
  Proof.
    unfold svcs_longi_u. rewrite u_fzero. apply fold_relm. intros u cyl. cbn [cylS fst snd]. rewrite u_ylist. apply fold_relm. intros u' Y. apply fold_relm. intros u'' [[g R] m].
    rewrite u_abs0. destruct (nlt XN (nZ XN 0) (nabs XN g)); [|reflexivity].
    assert (E : map (shift (scale3 l (fst cyl))) (map (scale3 l) pts) = map (scale3 l) (map (shift (fst cyl)) pts)).
    { rewrite !map_map. apply map_ext. intros; apply u_shift. }
    rewrite E, (map_com (svc_longi_u g R m n false) _ (scale3 l) (scale3 v)) by (intros; apply u_svc_longi). apply u_fadd.
  Qed.
  (** *** geometry *)
  Lemma u_transform_T w M p : 0 < w -> transform_T M (scale3 w p) = scale3 w (transform_T M p).
  Proof.
    intros Hw. destruct M as [[[[a b] c] [[d e] f]] [[g h] i]], p as [[x y] z]. unfold transform_T, scale3.
    pose proof (sc_intro w x Hw). pose proof (sc_intro w y Hw). pose proof (sc_intro w z Hw).
    f_equal; [f_equal|]; apply (fun H : sc w _ _ => proj2 H); uw.
  Qed.
  Lemma u_transform w M p : 0 < w -> transform M (scale3 w p) = scale3 w (transform M p).
  Proof.
    intros Hw. destruct M as [[[[a b] c] [[d e] f]] [[g h] i]], p as [[x y] z]. unfold transform, scale3.
    pose proof (sc_intro w x Hw). pose proof (sc_intro w y Hw). pose proof (sc_intro w z Hw).
    f_equal; [f_equal|]; apply (fun H : sc w _ _ => proj2 H); uw.
  Qed.
  Lemma u_norm u : norm (scale3 v u) = scale v (norm u).
  Proof. destruct u as [[x y] z]. unfold norm, scale3. apply (fun H : sc v _ _ => proj2 H). uw. Qed.
  Lemma u_tube R p : in_wake_tube (scale l R) (scale3 l p) = in_wake_tube R p.
  Proof. destruct p as [[x y] z]. unfold in_wake_tube, scale3. f_equal; [eapply sc_lt; [uu|uu|weq]|eapply sc_le; [uu|uu|weq]]. Qed.

  (** *** the kernels with absolute tolerances: points that the comparisons with constants treat alike in both units *)
  (** VortexDoublet.py:150-209: the line of doublets, straight (the slope m is 0) and semi-infinite *)
  Definition on_line (p : pt) : bool := let '(x, y, z) := p in
    (nlt XN (nabs XN y) (nQ XN 1 100000000) && nlt XN (nabs XN (nsub XN x (nmul XN (nZ XN 0) z))) (nQ XN 1 100000000) && nle XN (nZ XN 0) z && nle XN z (ninf XN))%bool.
  Lemma u_doublet_line g p : on_line (scale3 l p) = on_line p ->
    doublet_line_u (scale (l * l * v) g) (nZ XN 0) (ninf XN) (scale3 l p) = scale3 v (doublet_line_u g (nZ XN 0) (ninf XN) p).
  Proof.
    destruct p as [[X Y] Z]. intros HC. unfold doublet_line_u. cbn [scale3] in *.
    match goal with |- (if ?b then _ else _) = scale3 v (if ?b' then _ else _) => change b with (on_line (scale l X, scale l Y, scale l Z)); change b' with (on_line (X, Y, Z)) end.
    rewrite HC. destruct (on_line (X, Y, Z)); [symmetry; apply scale3_zero, Hv|]. clear HC. change (neqb XN (ninf XN) (ninf XN)) with true. cbv iota beta.
    assert (HX : sc l X (scale l X)) by auto. assert (HY : sc l Y (scale l Y)) by auto. assert (HZ : sc l Z (scale l Z)) by auto.
    assert (HG : sc (l * l * v) g (scale (l * l * v) g)) by (apply sc_intro; wpos).
    set (X' := scale l X) in *. set (Y' := scale l Y) in *. set (Z' := scale l Z) in *. set (G' := scale (l * l * v) g) in *. clearbody X' Y' Z' G'.
    set (a := nsqrt XN (nadd XN (nadd XN (sq X) (sq Y)) (sq Z))). set (a' := nsqrt XN (nadd XN (nadd XN (sq X') (sq Y')) (sq Z'))).
    assert (Ha : sc l a a') by (unfold a, a'; uw). clearbody a a'.
    set (b := nadd XN (nmul XN (nZ XN 0) X) Z). set (b' := nadd XN (nmul XN (nZ XN 0) X') Z'). assert (Hb : sc l b b') by (unfold b, b'; uw). clearbody b b'.
    set (c := nsqrt XN (nadd XN (sq (nZ XN 0)) (nZ XN 1))). assert (Hc : sc 1 c c) by apply sc_const. clearbody c.
    assert (H3 : sc (1 / (l * l)) (I30 a b c) (I30 a' b' c)) by (unfold I30; uw).
    assert (H50 : sc (1 / (l * l * (l * l))) (tI50 a b c) (tI50 a' b' c)) by (unfold tI50, cube; uw).
    assert (H51 : sc (1 / (l * l * l)) (tI51 a b c) (tI51 a' b' c)) by (unfold tI51; uw).
    assert (H52 : sc (1 / (l * l)) (tI52 a b c) (tI52 a' b' c)) by (unfold tI52; uw).
    unfold scale3. f_equal; [f_equal|]; apply (fun H : sc v _ _ => proj2 H); uw.
  Qed.
  (** VortexDoublet.py:110-148: the far field of the model VCFF *)
  Definition ff_tests (p : pt) : bool * bool * bool * bool * bool := let r := vc_r p in let z := snd p in let e8 : XN := nQ XN 1 100000000 in
    (nlt XN (nabs XN z) e8, nlt XN (nabs XN r) e8, nlt XN e8 (nabs XN r), nlt XN e8 z, nlt XN z (nopp XN e8)).
  Lemma u_far g (p : pt) : ff_tests (scale3 l p) = ff_tests p ->
    doublet_line_polar_pt (scale (l * l * v) g) (scale2 l (vc_r p, snd p)) = scale2 v (doublet_line_polar_pt g (vc_r p, snd p)).
  Proof.
    unfold ff_tests. rewrite u_r. intros HC. assert (ES : snd (scale3 l p) = scale l (snd p)) by (destruct p as [[x y] z]; reflexivity). rewrite ES in HC.
    generalize dependent (vc_r p). generalize (snd p). intros z r HC. unfold doublet_line_polar_pt, scale2. cbn [fst snd].
    assert (HG : sc (l * l * v) g (scale (l * l * v) g)) by (apply sc_intro; wpos). assert (HR : sc l r (scale l r)) by auto. assert (HZ : sc l z (scale l z)) by auto.
    set (G' := scale (l * l * v) g) in *. set (r' := scale l r) in *. set (z' := scale l z) in *. clearbody G' r' z'.
    apply pair5_inj in HC. destruct HC as (E1 & E2 & E3 & E4 & E5). rewrite E1, E2, E3, E4, E5. clear E1 E2 E3 E4 E5.
    set (n2 := nadd XN (sq r) (sq z)). set (n2' := nadd XN (sq r') (sq z')). assert (HN : sc (l * l) n2 n2') by (unfold n2, n2'; uw). clearbody n2 n2'.
    assert (P3 : sc (l * l * l) (p32 n2) (p32 n2')) by (apply sc_p32; auto). assert (P1 : sc l (p12 n2) (p12 n2')) by (apply sc_p12; auto).
    set (q3 := p32 n2) in *. set (q3' := p32 n2') in *. set (q1 := p12 n2) in *. set (q1' := p12 n2') in *. clearbody q3 q3' q1 q1'.
    f_equal; apply (fun H : sc v _ _ => proj2 H).
    - eapply sc_if; [reflexivity|apply sc_zero, Hv| |reflexivity]. eapply sc_if; [reflexivity|apply sc_zero, Hv| |reflexivity].
      eapply sc_if; [reflexivity|apply sc_zero, Hv| |reflexivity]. eapply sc_if; [reflexivity|uw| |reflexivity]. eapply sc_if; [reflexivity|uw|apply sc_zero, Hv|reflexivity].
    - eapply sc_if; [reflexivity|apply sc_zero, Hv| |reflexivity]. eapply sc_if; [reflexivity|uw| |reflexivity].
      eapply sc_if; [reflexivity|apply sc_zero, Hv| |reflexivity]. eapply sc_if; [reflexivity|unfold cube; uw|apply sc_zero, Hv|reflexivity].
  Qed.
  Lemma u_cut cut R p : vc_ff_cut cut (scale l R) (scale3 l p) = vc_ff_cut cut R p.
  Proof. destruct p as [[x y] z]. unfold vc_ff_cut, scale3. eapply sc_lt; [uu|uu|weq]. Qed.
  Lemma gather_Forall {A} (P : A -> Prop) : forall m L, Forall P L -> Forall P (gather m L).
  Proof. induction m as [|[] m IH]; intros L H; destruct H as [|a L Ha H]; cbn; auto. Qed.
  Lemma u_vcff PIb g R cut pts : Forall (fun p => ff_tests (scale3 l p) = ff_tests p) pts ->
    vc_tang_u_doublet_gen PIb (scale v g) (scale l R) cut (map (scale3 l) pts) = match vc_tang_u_doublet_gen PIb g R cut pts with Ok us => Ok (map (scale3 v) us) | Err e => Err e end.
  Proof.
    intros HF. unfold vc_tang_u_doublet_gen, vc_tang_doublet_polar_gen.
    assert (EC : map (vc_ff_cut cut (scale l R)) (map (scale3 l) pts) = map (vc_ff_cut cut R) pts) by (rewrite map_map; apply map_ext; intros; apply u_cut).
    rewrite EC. set (bC := map (vc_ff_cut cut R) pts). rewrite (gather_map (scale3 l) (map negb bC) pts).
    replace (vc_tang_polar_gen PIb (scale v g) (scale l R) (nZ XN 0) (map (scale3 l) (gather (map negb bC) pts))) with (map (scale2 v) (vc_tang_polar_gen PIb g R (nZ XN 0) (gather (map negb bC) pts)))
      by (rewrite <- (u_tang_polar PIb g R (nZ XN 0)), <- (proj2 (sc_zero l Hl)); reflexivity).
    rewrite u_rz. rewrite (gather_map (scale2 l) bC). set (near := vc_tang_polar_gen _ _ _ _ _).
    assert (EG : nmul XN (nmul XN (scale v g) (sq (scale l R))) (npi XN) = scale (l * l * v) (nmul XN (nmul XN g (sq R)) (npi XN))) by (apply (fun H : sc (l * l * v) _ _ => proj2 H); uw).
    rewrite EG. set (G := nmul XN (nmul XN g (sq R)) (npi XN)).
    assert (HQ : forall m L, Forall (fun p => ff_tests (scale3 l p) = ff_tests p) L -> map (doublet_line_polar_pt (scale (l * l * v) G)) (map (scale2 l) (gather m (map (fun p : pt => (vc_r p, snd p)) L))) = map (scale2 v) (map (doublet_line_polar_pt G) (gather m (map (fun p : pt => (vc_r p, snd p)) L)))).
    { induction m as [|[] m IH]; intros L H; destruct H as [|a L Ha H]; cbn [gather map]; auto. rewrite IH by exact H. rewrite u_far by exact Ha. reflexivity. }
    unfold doublet_line_polar_u. assert (EN : forall ps, any_neg (map (scale2 l) ps) = any_neg ps).
    { induction ps as [|[a b] ps IH]; [reflexivity|]. unfold any_neg in *. cbn [map existsb scale2 fst]. rewrite IH. rewrite (sc_lt0 l a (scale l a)) by auto. reflexivity. }
    rewrite EN. destruct (any_neg _); [reflexivity|]. cbn [Num.bind]. f_equal. rewrite HQ by exact HF.
    replace (map (fun _ : pt => (nnan XN, nnan XN)) (map (scale3 l) pts)) with (map (scale2 v) (map (fun _ : pt => (nnan XN, nnan XN)) pts)) by (rewrite !map_map; reflexivity).
    rewrite !scatter_map. apply map2_map_lr. intros; apply u_cart.
  Qed.
  (** VortexLine.py:16-61 and VortexCylinderSkewed.py:203-222: the root vortex of a skewed wake *)
  Definition root_sing (xa ya za xe ye ze : XN) : bool :=
    let n := nsqrt XN (nadd XN (nadd XN (sq xa) (sq ya)) (sq za)) in
    (nlt XN (nmul XN n (nsub XN n (nadd XN (nadd XN (nmul XN xa xe) (nmul XN ya ye)) (nmul XN za ze)))) (nQ XN 1 1000000000000) || nlt XN n (nQ XN 1 100000))%bool.
  Definition root_tests (chi : XN) (p : pt) : bool * bool := let '(r, psi, z) := to_polar p in let c := natan XN (ntan XN chi) in
    (root_sing (nmul XN r (ncos XN psi)) (nmul XN r (nsin XN psi)) z (nsin XN c) (nZ XN 0) (ncos XN c), nlt XN EPS_AXIS r).
  Lemma u_root_line xa ya za xe ye ze G : root_sing (scale l xa) (scale l ya) (scale l za) xe ye ze = root_sing xa ya za xe ye ze ->
    exists u u', vl_semiinf_u xa ya za xe ye ze G 0 (nZ XN 0) = Ok u /\
      vl_semiinf_u (scale l xa) (scale l ya) (scale l za) xe ye ze (scale (l * v) G) 0 (nZ XN 0) = Ok u' /\ vl_vec u' = scale3 v (vl_vec u).
  Proof.
    intros HC. unfold vl_semiinf_u.
    match goal with |- context [if ?b then Ok VLsing else _] => change b with (root_sing xa ya za xe ye ze) end.
    match goal with |- context [if orb (nlt XN (nmul XN (nsqrt XN (nadd XN (nadd XN (sq (scale l xa)) ?q) ?q')) ?r) ?s) ?w then Ok VLsing else _] =>
      change (orb (nlt XN (nmul XN (nsqrt XN (nadd XN (nadd XN (sq (scale l xa)) q) q')) r) s) w) with (root_sing (scale l xa) (scale l ya) (scale l za) xe ye ze) end.
    rewrite HC. destruct (root_sing xa ya za xe ye ze).
    - exists VLsing, VLsing. repeat split. symmetry. apply scale3_zero, Hv.
    - cbn [andb Z.leb Z.eqb Z.compare]. eexists. eexists. split; [reflexivity|]. split; [reflexivity|]. cbn [vl_vec].
      unfold scale3. f_equal; [f_equal|]; apply (fun H : sc v _ _ => proj2 H); uw.
  Qed.
  Definition scale4 (w : R) (q : XN * XN * XN * XN) : XN * XN * XN * XN := let '(a, b, c, d) := q in (scale w a, scale w b, scale w c, scale w d).
  Definition polar_l (q : pt) : pt := let '(r, psi, z) := q in (scale l r, psi, scale l z).
  Lemma u_svr_m0 G q : svr_m0 (scale (l * v) G) (polar_l q) = scale4 v (svr_m0 G q).
  Proof.
    destruct q as [[r psi] z]. unfold svr_m0, polar_l, scale4. f_equal; [f_equal; [f_equal|]|]; apply (fun H : sc v _ _ => proj2 H); try uw. apply sc_zero, Hv.
  Qed.
  Lemma u_svr_general G chi q : (let '(r, psi, z) := q in let c := natan XN (ntan XN chi) in
      root_sing (nmul XN (scale l r) (ncos XN psi)) (nmul XN (scale l r) (nsin XN psi)) (scale l z) (nsin XN c) (nZ XN 0) (ncos XN c) =
      root_sing (nmul XN r (ncos XN psi)) (nmul XN r (nsin XN psi)) z (nsin XN c) (nZ XN 0) (ncos XN c)) ->
    svr_general (scale (l * v) G) (ntan XN chi) (polar_l q) = scale4 v (svr_general G (ntan XN chi) q).
  Proof.
    destruct q as [[r psi] z]. cbv zeta. intros HC. unfold svr_general, polar_l.
    assert (E1 : nmul XN (scale l r) (ncos XN psi) = scale l (nmul XN r (ncos XN psi))) by (apply (fun H : sc l _ _ => proj2 H); uw).
    assert (E2 : nmul XN (scale l r) (nsin XN psi) = scale l (nmul XN r (nsin XN psi))) by (apply (fun H : sc l _ _ => proj2 H); uw).
    rewrite E1, E2 in *. destruct (u_root_line _ _ _ _ _ _ G HC) as (u & u' & -> & -> & E). rewrite E.
    destruct (vl_vec u) as [[a b] c]. unfold scale3, scale4. f_equal. apply (fun H : sc v _ _ => proj2 H). uw.
  Qed.
  Lemma u_svr_plane G m q : nlt XN EPS_AXIS (scale l (fst (fst q))) = nlt XN EPS_AXIS (fst (fst q)) -> svr_plane (scale (l * v) G) m (polar_l q) = scale4 v (svr_plane G m q).
  Proof.
    destruct q as [[r psi] z]. cbn [fst]. intros HC. unfold svr_plane, polar_l. rewrite HC. destruct (nlt XN EPS_AXIS r).
    - unfold scale4. f_equal; [f_equal; [f_equal|]|]; apply (fun H : sc v _ _ => proj2 H); uw.
    - assert (Z0 : sc v (nZ XN 0) (nZ XN 0)) by (apply sc_zero, Hv). unfold scale4.
      f_equal; [f_equal; [f_equal|]|]; apply (fun H : sc v _ _ => proj2 H); auto; (eapply sc_w; [|eapply sc_mul; [apply sc_const|exact Z0]]; weq).
  Qed.
  Lemma u_amax0 : forall L, nlt XN (nZ XN 0) (amax (map (fun p : pt => nabs XN (snd p)) (map polar_l L))) = nlt XN (nZ XN 0) (amax (map (fun p : pt => nabs XN (snd p)) L)).
  Proof.
    intros L. apply (sc_gt0 l). destruct L as [|[[r psi] z] L]; [apply sc_nan, Hl|]. cbn [map amax polar_l snd].
    assert (H0 : sc l (nabs XN z) (nabs XN (scale l z))) by uu. revert H0. generalize (nabs XN z) (nabs XN (scale l z)). clear r psi z.
    induction L as [|[[r psi] z] L IH]; intros a a' Ha; cbn [map fold_left]; [exact Ha|]. apply IH. cbn [polar_l snd]. eapply sc_max; [exact Ha|uu|weq].
  Qed.
  Lemma u_svc_root G chi pts : neqb XN G (nZ XN 0) = false -> Forall (fun p => root_tests chi (scale3 l p) = root_tests chi p) pts ->
    svc_root_u (scale (l * v) G) (ntan XN chi) false (map (scale3 l) pts) = match svc_root_u G (ntan XN chi) false pts with Ok us => Ok (map (scale3 v) us) | Err e => Err e end.
  Proof.
    intros E0 HF. unfold svc_root_u. assert (EP : map to_polar (map (scale3 l) pts) = map polar_l (map to_polar pts)).
    { rewrite !map_map. apply map_ext. intros p. rewrite u_to_polar. destruct (to_polar p) as [[r psi] z]. reflexivity. }
    rewrite EP. assert (HF' : Forall (fun q : pt => let '(r, psi, z) := q in let c := natan XN (ntan XN chi) in
      root_sing (nmul XN (scale l r) (ncos XN psi)) (nmul XN (scale l r) (nsin XN psi)) (scale l z) (nsin XN c) (nZ XN 0) (ncos XN c) =
      root_sing (nmul XN r (ncos XN psi)) (nmul XN r (nsin XN psi)) z (nsin XN c) (nZ XN 0) (ncos XN c) /\ nlt XN EPS_AXIS (scale l r) = nlt XN EPS_AXIS r) (map to_polar pts)).
    { clear EP. induction HF as [|p pts Hp HF IH]; constructor; [|exact IH]. unfold root_tests in Hp. rewrite u_to_polar in Hp. destruct (to_polar p) as [[r psi] z]. cbv zeta in *. apply pair2_inj in Hp. exact Hp. }
    clear HF EP. set (qs := map to_polar pts) in *. clearbody qs. unfold svc_root_u_polar. rewrite (sc_eqb0 (l * v) G (scale (l * v) G)), E0 by auto. rewrite u_amax0.
    assert (EO : forall q u, svr_out false (polar_l q) (scale4 v u) = scale3 v (svr_out false q u)) by (intros [[r psi] z] [[[a b] c] d]; reflexivity).
    destruct (neqb XN (ntan XN chi) (nZ XN 0)).
    - f_equal. apply map_com. intros q. rewrite u_svr_m0. apply EO.
    - destruct qs as [|q0 qs0]; [reflexivity|]. cbn [map]. set (q1 := q0 :: qs0) in *. destruct (nlt XN (nZ XN 0) _); f_equal.
      + change (map (fun p => svr_out false p (svr_general (scale (l * v) G) (ntan XN chi) p)) (map polar_l q1) = map (scale3 v) (map (fun p => svr_out false p (svr_general G (ntan XN chi) p)) q1)).
        clearbody q1. induction HF' as [|q L Hq HF' IH]; [reflexivity|]. cbn [map]. f_equal; [|exact IH]. rewrite u_svr_general by (destruct q as [[r psi] z]; cbv zeta in *; tauto). apply EO.
      + change (map (fun p => svr_out false p (svr_plane (scale (l * v) G) (ntan XN chi) p)) (map polar_l q1) = map (scale3 v) (map (fun p => svr_out false p (svr_plane G (ntan XN chi) p)) q1)).
        clearbody q1. induction HF' as [|q L Hq HF' IH]; [reflexivity|]. cbn [map]. f_equal; [|exact IH]. rewrite u_svr_plane by (destruct q as [[r psi] z]; cbv zeta in *; cbn [fst]; tauto). apply EO.
  Qed.

  (** the turbine in the new units *)
  Definition converted (t : turbine XN) : turbine XN :=
    {| t_R := scale l (t_R t); t_rhub := scale3 l (t_rhub t); t_shaft := t_shaft t; t_shaft0 := t_shaft0 t; t_vert := t_vert t; t_horz := t_horz t;
       t_TF2g := t_TF2g t; t_Tc2wt := t_Tc2wt t; t_Twt2g := t_Twt2g t; t_yaw := t_yaw t; t_U0 := scale3 v (t_U0 t);
       t_r := option_map (map (scale l)) (t_r t); t_gt := option_map (map (scale v)) (t_gt t);
       t_gl := option_map (option_map (map (scale v))) (t_gl t); t_Gr := option_map (scale (l * v)) (t_Gr t);
       t_Lambda := t_Lambda t; t_ground := t_ground t; t_chi := t_chi t; t_model := t_model t; t_Ct := t_Ct t; t_name := t_name t |}.
  Definition converted_result (r : result (list pt)) : result (list pt) := match r with Ok us => Ok (map (scale3 v) us) | Err e => Err e end.

  Lemma u_yaw_wind t : yaw_wind (converted t) = yaw_wind t.
  Proof.
    unfold yaw_wind, converted. cbn [t_U0 t_vert t_horz]. destruct (t_U0 t) as [[u1 u2] u3], (t_vert t) as [[v1 v2] v3], (t_horz t) as [[h1 h2] h3].
    unfold scale3. pose proof (V1 u1) as E1. pose proof (V1 u2) as E2. pose proof (V1 u3) as E3.
    set (a1 := scale v u1) in *. set (a2 := scale v u2) in *. set (a3 := scale v u3) in *. clearbody a1 a2 a3. clear - Hl Hv E1 E2 E3.
    cbn [dot cross vscale vsub vdivs norm].
    set (d := nadd XN (nadd XN (nmul XN u1 v1) (nmul XN u2 v2)) (nmul XN u3 v3)). set (d' := nadd XN (nadd XN (nmul XN a1 v1) (nmul XN a2 v2)) (nmul XN a3 v3)).
    assert (Hd : sc v d d') by (unfold d, d'; uw). clearbody d d'.
    set (k1 := nsub XN u1 _). set (k1' := nsub XN a1 _). assert (K1 : sc v k1 k1') by (unfold k1, k1'; uw). clearbody k1 k1'.
    set (k2 := nsub XN u2 (nmul XN d v2)). set (k2' := nsub XN a2 _). assert (K2 : sc v k2 k2') by (unfold k2, k2'; uw). clearbody k2 k2'.
    set (k3 := nsub XN u3 (nmul XN d v3)). set (k3' := nsub XN a3 _). assert (K3 : sc v k3 k3') by (unfold k3, k3'; uw). clearbody k3 k3'.
    match goal with |- (if _ then _ else nmul XN (nsign XN ?s') (nacos XN ?c')) = (if _ then _ else nmul XN (nsign XN ?s) (nacos XN ?c)) =>
      assert (ES : nsign XN s' = nsign XN s) by (apply sc_same; uu); assert (EC : c' = c) by (refine (sc_same _ _ _); uw); rewrite ES, EC; reflexivity end.
  Qed.
  Lemma u_chi t : chi_now (converted t) = chi_now t.
  Proof. unfold chi_now. cbn [converted t_chi]. destruct (t_chi t); [reflexivity|]. unfold chi_fresh. rewrite u_yaw_wind. reflexivity. Qed.

  (** what the absolute tolerances exclude: the doublet models, and the skewed root vortex *)
  Definition no_root (t : turbine XN) (o : opts XN) : Prop :=
    o_root o = false \/ skewed (chi_now t) = false \/ t_Gr t = None \/ exists G, t_Gr t = Some G /\ neqb XN G (nZ XN 0) = true.
  Definition model_of (t : turbine XN) (o : opts XN) : string := match o_Model o with Some m => m | None => t_model t end.
  (** the points as the kernels see them: relative to the hub, along the axes of the rotor, and their images in the ground *)
  Definition local_points (t : turbine XN) (o : opts XN) (pts : list pt) : list (list pt) :=
    ylist (match o_ground o with Some g => g | None => t_ground t end) (transform_T (T_c2g t) (t_rhub t)) (map (transform_T (T_c2g t)) pts).
  (** no comparison with a constant changes its outcome when the units change *)
  Definition alike_root (t : turbine XN) (o : opts XN) (Ylist : list (list pt)) : Prop :=
    no_root t o \/ Forall (Forall (fun p => root_tests (chi_now t) (scale3 l p) = root_tests (chi_now t) p)) Ylist.
  Definition alike_tang (M : string) (Y : list pt) : Prop :=
    (M = "VD"%string -> Forall (fun p => on_line (scale3 l p) = on_line p) Y) /\ (M = "VCFF"%string -> Forall (fun p => ff_tests (scale3 l p) = ff_tests p) Y).
  Definition alike (t : turbine XN) (o : opts XN) (pts : list pt) : Prop :=
    alike_root t o (local_points t o pts) /\ Forall (alike_tang (model_of t o)) (local_points t o pts).
  Lemma u_cu_root t o Ylist u : alike_root t o Ylist ->
    cu_root (converted t) o (chi_now t) (map (map (scale3 l)) Ylist) (map (scale3 v) u) = converted_result (cu_root t o (chi_now t) Ylist u).
  Proof.
    intros NR. unfold cu_root. cbn [converted t_Gr]. destruct (o_root o) eqn:ER; [|reflexivity]. destruct (t_Gr t) as [G|] eqn:EG; [|reflexivity]. cbn [option_map].
    rewrite (sc_eqb0 (l * v) G) by auto. destruct (neqb XN G (nZ XN 0)) eqn:E0; [reflexivity|].
    change (Ok (map (scale3 v) u)) with (converted_result (Ok u)). apply (fold_relm_in _ _ (map (scale3 l)) converted_result).
    intros [us|e] Y HY; [|reflexivity]. cbn [converted_result Num.bind]. destruct (skewed (chi_now t)) eqn:SK.
    - assert (HF : Forall (fun p => root_tests (chi_now t) (scale3 l p) = root_tests (chi_now t) p) Y).
      { destruct NR as [NR|NR]; [|rewrite Forall_forall in NR; apply NR, HY]. exfalso. destruct NR as [H|[H|[H|(G' & H & H')]]]; congruence. }
      rewrite u_svc_root by assumption. destruct (svc_root_u G (ntan XN (chi_now t)) false Y); cbn [Num.bind converted_result]; [|reflexivity]. f_equal. apply u_fadd.
    - cbn [Num.bind converted_result]. f_equal. unfold vc_root_u. rewrite (map_com (vl_semiinf_straight_u G false) _ (scale3 l) (scale3 v)) by (intros; apply u_root_straight). apply u_fadd.
  Qed.
  Lemma u_cu_tang1 t o M chi g Y : alike_tang M Y ->
    cu_tang1 (converted t) o M chi (scale v g) (map (scale3 l) Y) = converted_result (cu_tang1 t o M chi g Y).
  Proof.
    intros [N1 N2]. unfold cu_tang1. cbn [converted t_R]. destruct (skewed chi).
    - destruct (String.eqb M "VC"); [|reflexivity]. cbn [converted_result]. f_equal. apply map_com. intros; apply u_svc_tang.
    - destruct (String.eqb M "VC").
      + cbn [converted_result]. f_equal. unfold vc_tang_u. rewrite (proj2 (sc_zero l Hl)) at 1. apply u_tang.
      + destruct (String.eqb_spec M "VCFF") as [E|_]; [apply u_vcff, N2, E|]. destruct (String.eqb_spec M "VD") as [E|_].
        * cbn [converted_result]. f_equal. specialize (N1 E). clear N2. induction N1 as [|p Y Hp HY IH]; [reflexivity|]. cbn [map]. f_equal; [|exact IH].
          rewrite <- u_doublet_line by exact Hp. f_equal. apply (fun H : sc (l * l * v) _ _ => proj2 H). uw.
        * destruct (String.eqb M "SS"); [|reflexivity].
          cbn [converted_result]. f_equal. apply map_com. intros p. rewrite u_ss. unfold scale3.
          f_equal; f_equal; apply (fun H : sc v _ _ => proj2 H); uw.
  Qed.
  Lemma u_cu_longi1 t M chi g Y : cu_longi1 (converted t) M chi (scale v g) (map (scale3 l) Y) = converted_result (cu_longi1 t M chi g Y).
  Proof.
    unfold cu_longi1. cbn [converted t_R]. destruct (skewed chi); (destruct (String.eqb M "VC"); [|reflexivity]); cbn [converted_result]; f_equal.
    - apply map_com. intros; apply u_svc_longi.
    - apply u_longi.
  Qed.
  Lemma u_cu_single t o M chi g Ylist u : Forall (alike_tang M) Ylist ->
    cu_single (converted t) o M chi (scale v g) (map (map (scale3 l)) Ylist) (map (scale3 v) u) = converted_result (cu_single t o M chi g Ylist u).
  Proof.
    intros HA. rewrite Forall_forall in HA. unfold cu_single. change (Ok (map (scale3 v) u)) with (converted_result (Ok u)). apply (fold_relm_in _ _ (map (scale3 l)) converted_result).
    intros [us|e] Y HY; [|reflexivity]. specialize (HA Y HY). cbn [converted_result Num.bind]. rewrite (sc_eqb0 v g) by auto.
    assert (EG : gl_active1 (converted t) (o_longi o) = match gl_active1 t (o_longi o) with Ok x => Ok (option_map (scale v) x) | Err e => Err e end).
    { unfold gl_active1. cbn [converted t_gl]. destruct (negb (o_longi o)); [reflexivity|]. destruct (t_gl t) as [[[|gl [|? ?]]|]|]; cbn [option_map map]; try reflexivity.
      rewrite (sc_eqb0 v gl) by auto. destruct (neqb XN gl (nZ XN 0)); reflexivity. }
    rewrite EG. rewrite u_cu_tang1 by assumption.
    destruct (o_tang o && negb (neqb XN g (nZ XN 0)))%bool.
    - destruct (cu_tang1 t o M chi g Y) as [w|e]; cbn [converted_result Num.bind]; [|reflexivity]. rewrite u_fadd.
      destruct (gl_active1 t (o_longi o)) as [[gl|]|e]; cbn [Num.bind option_map]; [|reflexivity..].
      rewrite u_cu_longi1. destruct (cu_longi1 t M chi gl Y) as [w'|e]; cbn [converted_result Num.bind]; [|reflexivity]. rewrite u_fadd. reflexivity.
    - cbn [Num.bind]. destruct (gl_active1 t (o_longi o)) as [[gl|]|e]; cbn [Num.bind option_map]; [|reflexivity..].
      rewrite u_cu_longi1. destruct (cu_longi1 t M chi gl Y) as [w'|e]; cbn [converted_result Num.bind]; [|reflexivity]. rewrite u_fadd. reflexivity.
  Qed.
  Lemma u_pairs gs r : map2 pair (map (scale v) gs) (map (scale l) r) = map (fun gr => (scale v (fst gr), scale l (snd gr))) (map2 (@pair XN XN) gs r).
  Proof. apply map2_map_lr. reflexivity. Qed.
  Lemma u_triples m gs r : map2 (fun g r => (g, r, m)) (map (scale v) gs) (map (scale l) r) = map (fun gr : XN * XN * XN => let '(g, R, m) := gr in (scale v g, scale l R, m)) (map2 (fun g r : XN => (g, r, m)) gs r).
  Proof. apply map2_map_lr. reflexivity. Qed.
  Lemma u_cu_multi t o M chi gs ground cyl pts u :
    cu_multi (converted t) o M chi (map (scale v) gs) ground (scale3 l cyl) (map (scale3 l) pts) (map (scale3 v) u) = converted_result (cu_multi t o M chi gs ground cyl pts u).
  Proof.
    unfold cu_multi. cbn [converted t_r t_gl]. destruct (String.eqb M "VC"); [|reflexivity]. destruct (t_r t) as [r|]; [|reflexivity]. destruct (t_gl t) as [gl|]; [|reflexivity].
    cbn [option_map]. rewrite !map_length. destruct (negb (Nat.eqb (len gs) (len r))); [reflexivity|].
    replace (match option_map (map (scale v)) gl with Some gl => negb (Nat.eqb (len gl) (len r)) | None => false end) with (match gl with Some gl => negb (Nat.eqb (len gl) (len r)) | None => false end)
      by (destruct gl; cbn [option_map]; rewrite ?map_length; reflexivity).
    destruct (match gl with Some gl => negb (Nat.eqb (len gl) (len r)) | None => false end); [reflexivity|]. cbn [converted_result]. f_equal.
    set (u1 := if o_tang o then fadd u _ else u). set (u1' := if o_tang o then fadd (map (scale3 v) u) _ else _).
    assert (E1 : u1' = map (scale3 v) u1).
    { unfold u1, u1'. destruct (o_tang o); [|reflexivity]. rewrite <- u_fadd. f_equal. destruct (skewed chi).
      - rewrite u_triples. exact (u_svcs_tang 180 ground [(cyl, _)] pts).
      - rewrite u_pairs. unfold vcs_tang_u. rewrite (proj2 (sc_zero l Hl)) at 1. exact (u_vcs_tang _ (nZ XN 0) ground [(cyl, _)] pts). }
    rewrite E1. clearbody u1. clear u1' E1. destruct (o_longi o); [|reflexivity]. destruct gl as [gl|]; [|reflexivity]. cbn [option_map]. rewrite <- u_fadd. f_equal. destruct (skewed chi).
    - rewrite u_triples. exact (u_svcs_longi 180 ground [(cyl, _)] pts).
    - rewrite u_pairs. unfold vcs_longi_u. exact (u_vcs_longi _ ground [(cyl, _)] pts).
  Qed.
  (** *** the query *)
  Lemma u_compute t o pts : alike t o pts ->
    compute_u (converted t) o (map (scale3 l) pts) = (converted (fst (compute_u t o pts)), converted_result (snd (compute_u t o pts))).
  Proof.
    intros [NR NT]. unfold local_points in NR, NT. unfold compute_u. rewrite u_chi. cbn [fst snd]. f_equal.
    change (T_c2g (converted t)) with (T_c2g t). cbn [converted t_gt t_rhub t_ground t_model t_R t_U0].
    fold (model_of t o). set (M := model_of t o) in *. destruct (t_gt t) as [gs|]; [|reflexivity]. cbn [option_map].
    rewrite (map_com (transform_T (T_c2g t)) (transform_T (T_c2g t)) (scale3 l) (scale3 l)) by (intros; apply u_transform_T, Hl).
    rewrite u_transform_T by exact Hl. rewrite u_ylist, u_fzero. set (ptc := map (transform_T (T_c2g t)) pts). set (cyl := transform_T (T_c2g t) (t_rhub t)).
    set (ground := match o_ground o with Some g => g | None => t_ground t end). fold (converted t). rewrite u_cu_root by exact NR.
    destruct (cu_root t o (chi_now t) (ylist ground cyl ptc) (fzero pts)) as [u|e]; cbn [converted_result Num.bind]; [|reflexivity].
    replace (match map (scale v) gs with [g] => cu_single (converted t) o M (chi_now t) g (map (map (scale3 l)) (ylist ground cyl ptc)) (map (scale3 v) u)
             | _ => cu_multi (converted t) o M (chi_now t) (map (scale v) gs) ground (scale3 l cyl) (map (scale3 l) ptc) (map (scale3 v) u) end)
      with (converted_result (match gs with [g] => cu_single t o M (chi_now t) g (ylist ground cyl ptc) u | _ => cu_multi t o M (chi_now t) gs ground cyl ptc u end)).
    2:{ destruct gs as [|g [|g' gs]]; cbn [map]; [rewrite <- u_cu_multi; reflexivity|rewrite <- u_cu_single by assumption; reflexivity|rewrite <- u_cu_multi; reflexivity]. }
    destruct (match gs with [g] => cu_single t o M (chi_now t) g (ylist ground cyl ptc) u | _ => cu_multi t o M (chi_now t) gs ground cyl ptc u end) as [w|e]; cbn [converted_result Num.bind]; [|reflexivity].
    f_equal. rewrite (map_com (shift cyl) (shift (scale3 l cyl)) (scale3 l) (scale3 l)) by (intros; apply u_shift).
    set (p0 := map (shift cyl) ptc).
    rewrite (map2_map_lr _ (fun p v0 => if in_wake_tube (t_R t) p then (nZ XN 0, nZ XN 0, nZ XN 0) else v0) (scale3 l) (scale3 v) (scale3 v)).
    2:{ intros a b. rewrite u_tube. destruct (in_wake_tube (t_R t) a); [symmetry; apply scale3_zero, Hv|reflexivity]. }
    set (w2 := if o_no_wake o then map2 _ p0 w else w).
    replace (if o_no_wake o then map (scale3 v) (map2 (fun p v0 => if in_wake_tube (t_R t) p then (nZ XN 0, nZ XN 0, nZ XN 0) else v0) p0 w) else map (scale3 v) w) with (map (scale3 v) w2)
      by (unfold w2; destruct (o_no_wake o); reflexivity).
    rewrite (map_com (transform (T_c2g t)) (transform (T_c2g t)) (scale3 v) (scale3 v)) by (intros; apply u_transform, Hv).
    destruct (o_only_ind o); [reflexivity|]. apply map_com. intros; apply u_vadd, Hv.
  Qed.
End Units.
