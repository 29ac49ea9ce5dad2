(** * C147: the choice of units: the loading, the farm, and where the answers depend on the units *)
From Coq Require Import Reals Lra ZArith List Bool String Lia.
From Verif Require Import Num NumR NumX M_Elliptic M_Line M_Doublet M_Cylinder M_Misc M_Skewed M_Solver M_Turbine M_Farm L_Units P_Units.
Import ListNotations.
Local Open Scope R_scope.
Local Open Scope list_scope.
Local Notation len := List.length.

Lemma Forall2_map2 {A B C D} (P : C -> D -> Prop) (f : A -> B -> C) (g : A -> B -> D) : forall X Y Y', len Y = len Y' -> (forall x y y', P (f x y) (g x y')) ->
  Forall2 P (map2 f X Y) (map2 g X Y').
Proof. induction X as [|x X IH]; intros [|y Y] [|y' Y'] E H; cbn in *; try discriminate; constructor; auto. Qed.
Lemma map2_len_eq {A A' B B' C C'} (f : A -> B -> C) (g : A' -> B' -> C') : forall X Y X' Y', len X = len X' -> len Y = len Y' -> len (map2 f X Y) = len (map2 g X' Y').
Proof. induction X as [|x X IH]; intros [|y Y] [|x' X'] [|y' Y'] E F; cbn in *; try discriminate; auto. Qed.

(** with swirl the loop reads only the circulation and the speed ratio of each radius *)
Definition same_kl (q q' : XN * XN * XN * XN) : Prop := fst (fst q) = fst (fst q').
Lemma dloop_swirl bH : forall qs qs', Forall2 same_kl qs qs' ->
  d_gs (dloop true bH qs) = d_gs (dloop true bH qs') /\ d_rl (dloop true bH qs) = d_rl (dloop true bH qs') /\ d_next (dloop true bH qs) = d_next (dloop true bH qs').
Proof.
  intros qs qs' H. induction H as [|q q' qs qs' E H IH]; [auto|]. cbn [dloop fold_right].
  fold (dloop (N := XN) true bH qs). fold (dloop (N := XN) true bH qs'). destruct IH as (I1 & I2 & I3).
  destruct q as [[[k lR] ap] C], q' as [[[k' lR'] ap'] C']. unfold same_kl in E. cbn [fst snd] in E. inversion E; subst k' lR'.
  unfold dstep. cbn [d_gs d_rl d_next]. rewrite I1, I2, I3. auto.
Qed.

Section Load.
  Variables l v : R.
  Hypothesis (Hl : 0 < l) (Hv : 0 < v).
  Let HLV : 0 < l * v := Rmult_lt_0_compat _ _ Hl Hv.
  Let HO : 0 < v / l := Rdiv_lt_0_compat _ _ Hv Hl.
  Let L1 x : sc l x (scale l x) := sc_intro l x Hl.
  Let V1 x : sc v x (scale v x) := sc_intro v x Hv.
  Let G1 x : sc (l * v) x (scale (l * v) x) := sc_intro (l * v) x HLV.
  Let O1 x : sc (v / l) x (scale (v / l) x) := sc_intro (v / l) x HO.
  Hint Resolve L1 V1 G1 O1 : core units.
  Ltac uu := units l v.
  Ltac uw := eapply sc_w; [|uu]; weq.
  Ltac sw w := apply (fun H : sc w _ _ => proj2 H).

  Lemma l_amax r : amax (map (scale l) r) = scale l (amax (N := XN) r).
  Proof.
    destruct r as [|a r]; [reflexivity|]. cbn [map amax]. revert a. induction r as [|b r IH]; intros a; cbn [map fold_left]; [reflexivity|].
    rewrite <- IH. f_equal. sw l. eapply sc_max; [apply L1|apply L1|reflexivity].
  Qed.
  Lemma l_mid r : midpoints (map (scale l) r) = map (scale l) (midpoints (N := XN) r).
  Proof.
    induction r as [|a r IH]; [reflexivity|]. destruct r as [|b r]; [reflexivity|]. cbn [map midpoints] in *. f_equal; [sw l; uw|].
    destruct r as [|c r]; cbn [map] in *; [|exact IH]. f_equal. sw l; uw.
  Qed.
  Lemma l_cyl r R : default_r_cyl (map (scale l) r) (scale l R) = map (scale l) (default_r_cyl (N := XN) r R).
  Proof. unfold default_r_cyl. destruct r as [|a [|b r]]; [reflexivity..|]. exact (l_mid (a :: b :: r)). Qed.
  Lemma l_gtilde g : gtilde (map (scale (l * v)) g) = map (scale (l * v)) (gtilde (N := XN) g).
  Proof.
    induction g as [|a g IH]; [reflexivity|]. destruct g as [|b g]; cbn [map gtilde] in *.
    - f_equal. sw (l * v). eapply sc_sub; [apply G1|apply sc_zero, HLV|reflexivity].
    - f_equal; [|exact IH]. sw (l * v). uw.
  Qed.
  Lemma ap_len Om Om' : forall g rc, len (ap_conv Om (map (scale (l * v)) g) (map (scale l) rc)) = len (ap_conv (N := XN) Om' g rc).
  Proof.
    induction g as [|a g IH]; intros rc; [reflexivity|]. destruct g as [|b g]; cbn [map] in *.
    - destruct rc as [|r [|r' rc]]; reflexivity.
    - destruct rc as [|r rc]; [reflexivity|]. cbn [ap_conv map len] in *. f_equal. apply IH.
  Qed.
  (** the wake in the new units; [w_a], [w_ap], [w_h] are not kept by the turbine *)
  Definition wake_conv (w w' : wake XN) : Prop :=
    w_gt w' = map (scale v) (w_gt w) /\ w_gl w' = option_map (map (scale v)) (w_gl w) /\ w_Gr w' = option_map (scale (l * v)) (w_Gr w).
  Definition wake_res (r r' : result (wake XN)) : Prop :=
    match r, r' with Ok w, Ok w' => wake_conv w w' | Err e, Err e' => e = e' | _, _ => False end.
  Lemma l_discr r G R U Om nB bT bH : 
    wake_res (WakeVorticityFromCirculation_Discr r G R U Om nB true bT bH None)
             (WakeVorticityFromCirculation_Discr (map (scale l) r) (map (scale (l * v)) G) (scale l R) (scale v U) (scale (v / l) Om) nB true bT bH None).
  Proof.
    unfold WakeVorticityFromCirculation_Discr. rewrite l_cyl. set (rc := default_r_cyl r R). rewrite !l_amax.
    rewrite (sc_lt l l (amax rc) (scale l (amax rc)) (amax r) (scale l (amax r))) by auto.
    destruct r as [|r0 r']; [reflexivity|]. set (r := r0 :: r') in *. clearbody rc. change (map (scale l) r) with (scale l r0 :: map (scale l) r').
    destruct rc as [|rc0 rc']; [reflexivity|]. cbn [map]. set (rc := rc0 :: rc'). cbn [amax]. 
    destruct (nlt XN (amax rc) (amax r)); [reflexivity|]. rewrite (sc_eqb0 l rc0 (scale l rc0)) by auto. destruct (neqb XN rc0 (nZ XN 0)); [reflexivity|].
    change (scale l rc0 :: map (scale l) rc') with (map (scale l) rc). change (scale l r0 :: map (scale l) r') with (map (scale l) r).
    assert (EG : map (fun g => nmul XN g nB) (map (scale (l * v)) G) = map (scale (l * v)) (map (fun g => nmul XN g nB) G)).
    { apply map_com. intros g. sw (l * v). uw. }
    rewrite EG. set (GG := map (fun g => nmul XN g nB) G).
    assert (EK : map (fun g => ndiv XN (nmul XN g (scale (v / l) Om)) (nmul XN (npi XN) (sq (scale v U)))) (map (scale (l * v)) GG) = map (fun g => ndiv XN (nmul XN g Om) (nmul XN (npi XN) (sq U))) GG).
    { rewrite map_map. apply map_ext. intros g. refine (sc_same _ _ _). uw. }
    assert (EL : map (fun r => ndiv XN (nmul XN (scale (v / l) Om) r) (scale v U)) (map (scale l) rc) = map (fun r => ndiv XN (nmul XN Om r) U) rc).
    { rewrite map_map. apply map_ext. intros g. refine (sc_same _ _ _). uw. }
    cbn [wake_res]. unfold wake_conv. cbn [w_gt w_gl w_Gr].
    match goal with |- (map _ (d_gs (dloop true bH ?Q')) = map _ (map _ (d_gs (dloop true bH ?Q)))) /\ _ => set (qs' := Q'); set (qs := Q) end.
    assert (EQ : Forall2 same_kl qs qs').
    { unfold qs, qs'. unfold rc in EL. cbn [map] in EL. rewrite EK, EL. apply Forall2_map2; [|reflexivity].
      assert (EA : len (if bT then ap_conv Om GG rc else map (fun g => nmul XN (nZ XN 0) g) GG) = len (if bT then ap_conv (scale (v / l) Om) (map (scale (l * v)) GG) (map (scale l) rc) else map (fun g => nmul XN (nZ XN 0) g) (map (scale (l * v)) GG))).
      { destruct bT; [symmetry; apply ap_len|rewrite !map_length; reflexivity]. }
      apply map2_len_eq; [exact EA|]. apply map2_len_eq; [rewrite map_length; reflexivity|exact EA]. }
    rewrite <- (proj1 (dloop_swirl bH _ _ EQ)). split; [|split].
    - symmetry. rewrite map_map. apply map_ext. intros g. symmetry. sw v. uw.
    - cbn [option_map]. f_equal. rewrite l_gtilde. apply map2_map_lr. intros a b. sw v. uw.
    - cbn [option_map]. f_equal. sw (l * v). apply sc_opp. clearbody GG. destruct GG as [|g GG]; [apply sc_nan, HLV|apply G1].
  Qed.
  Lemma l_rbar r R : map (fun r => ndiv XN r (scale l R)) (map (scale l) r) = map (fun r => ndiv XN r R) r.
  Proof. rewrite map_map. apply map_ext. intros x. refine (sc_same _ _ _). uw. Qed.

  (** *** re-interpolation of the loading *)
  Lemma l_interp_go w x : 0 < w -> forall xp fp, interp_go (scale l x) (map (scale l) xp) (map (scale w) fp) = scale w (interp_go (N := XN) x xp fp).
  Proof.
    intros Hw. induction xp as [|a xp IH]; intros fp.
    - destruct fp; reflexivity.
    - destruct xp as [|b xp]; [destruct fp; reflexivity|]. destruct fp as [|f [|g fp]]; [reflexivity..|]. cbn [map interp_go] in *.
      rewrite (sc_lt l l x (scale l x) b (scale l b)) by auto. destruct (nlt XN x b); [|apply (IH (g :: fp))].
      pose proof (sc_intro w f Hw). pose proof (sc_intro w g Hw). sw w. uw.
  Qed.
  Definition res_map {A B} (f : A -> B) (r : result A) : result B := match r with Ok a => Ok (f a) | Err e => Err e end.
  Lemma l_np_interp w xs xp fp : 0 < w -> np_interp (map (scale l) xs) (map (scale l) xp) (map (scale w) fp) = res_map (map (scale w)) (np_interp (N := XN) xs xp fp).
  Proof.
    intros Hw. unfold np_interp. destruct xp as [|x0 xp], fp as [|f0 fp]; [reflexivity..|]. cbn [map len]. rewrite !map_length.
    destruct (Nat.eqb (S (len xp)) (S (len fp))); [|reflexivity]. cbn [res_map]. f_equal. apply map_com. intros x.
    rewrite (sc_lt l l x (scale l x) x0 (scale l x0)) by auto. destruct (nlt XN x x0); [reflexivity|]. apply (l_interp_go w x Hw (x0 :: xp) (f0 :: fp)).
  Qed.
  Lemma map_scale1 (xs : list XN) : map (scale 1) xs = xs.
  Proof. rewrite <- (map_id xs) at 2. apply map_ext, scale_1. Qed.
  Lemma l_np_interp1 xs xp fp : np_interp (map (scale l) xs) (map (scale l) xp) fp = np_interp (N := XN) xs xp fp.
  Proof. pose proof (l_np_interp 1 xs xp fp Rlt_0_1) as H. rewrite map_scale1 in H. rewrite H. destruct (np_interp xs xp fp); cbn [res_map]; rewrite ?map_scale1; reflexivity. Qed.
  Lemma l_nsum w : 0 < w -> forall xs, nsum (map (scale w) xs) = scale w (nsum (N := XN) xs).
  Proof.
    intros Hw xs. unfold nsum. rewrite (proj2 (sc_zero w Hw)) at 1. generalize (nZ XN 0). induction xs as [|x xs IH]; intros a; cbn [map fold_left]; [reflexivity|].
    rewrite <- IH. f_equal. sw w. apply (sc_add w w); auto using sc_intro.
  Qed.
  Lemma l_mean w xs : 0 < w -> np_mean (map (scale w) xs) = scale w (np_mean (N := XN) xs).
  Proof. intros Hw. unfold np_mean. rewrite l_nsum, map_length by exact Hw. pose proof (sc_intro w (nsum xs) Hw). sw w. uw. Qed.
  Lemma l_load R r Ct Ga n : load_interp (scale l R) (option_map (map (scale l)) r) Ct (option_map (map (scale (l * v))) Ga) n
    = res_map (fun q => (option_map (map (scale l)) (fst (fst q)), snd (fst q), option_map (map (scale (l * v))) (snd q))) (load_interp (N := XN) R r Ct Ga n).
  Proof.
    destruct n as [n|]; [|reflexivity]. cbn [load_interp]. destruct n as [|[|n]]; cbn [load_interp].
    - destruct r as [r|]; [|reflexivity]. cbn [option_map]. change (map (fun x => nmul XN x (scale l R)) (linspace (nQ XN 5 1000) (nQ XN 995 1000) 0)) with (map (scale l) []).
      destruct Ct as [c|]; [rewrite l_np_interp1; destruct (np_interp _ r c); reflexivity|]. destruct Ga as [g|]; [|reflexivity]. cbn [option_map].
      rewrite l_np_interp by exact HLV. destruct (np_interp _ r g); reflexivity.
    - cbn [res_map fst snd option_map map]. f_equal. f_equal; [f_equal|].
      + f_equal. f_equal. sw l. uw.
      + destruct Ga as [g|]; [|reflexivity]. cbn [option_map map]. rewrite l_mean by exact HLV. reflexivity.
    - destruct r as [r|]; [|reflexivity]. cbn [option_map].
      assert (EV : map (fun x => nmul XN x (scale l R)) (linspace (nQ XN 5 1000) (nQ XN 995 1000) (S (S n))) = map (scale l) (map (fun x => nmul XN x R) (linspace (nQ XN 5 1000) (nQ XN 995 1000) (S (S n))))).
      { rewrite map_map. apply map_ext. intros x. sw l. uw. }
      rewrite EV. destruct Ct as [c|].
      + rewrite l_np_interp1. destruct (np_interp _ r c); cbn [Num.bind res_map fst snd option_map]; rewrite ?EV; reflexivity.
      + destruct Ga as [g|]; [|reflexivity]. cbn [option_map]. rewrite l_np_interp by exact HLV. destruct (np_interp _ r g); cbn [Num.bind res_map fst snd option_map]; rewrite ?EV; reflexivity.
  Qed.
  (** the turbine spins at a finite tip speed ratio below 20 in a wind that blows: swirl is on and the rotational speed is a number *)
  Definition swirling (t : turbine XN) (Lambda : option XN) : Prop :=
    exists R u x, t_R t = Fin R /\ 0 < R /\ norm (t_U0 t) = Fin u /\ 0 < u /\ (match Lambda with Some a => Some a | None => t_Lambda t end) = Some (Fin x) /\ x < 20.
  Lemma l_omega R u x : 0 < R -> 0 < u -> ndiv XN (nmul XN (Fin x) (Fin u)) (Fin R) = Fin (x * u / R).
  Proof. intros HR Hu. cbn. destruct (Reqb_spec R 0) as [E|_]; [lra|]. reflexivity. Qed.
  Lemma l_lambda R u x : 0 < R -> 0 < u -> ndiv XN (nmul XN (omega_fix (Fin (x * u / R) : XN)) (Fin R)) (Fin u) = Fin x.
  Proof. intros HR Hu. unfold omega_fix. cbn. destruct (Reqb_spec u 0) as [E|_]; [lra|]. f_equal. field. lra. Qed.
  Lemma l_fix x : omega_fix (Fin x : XN) = Fin x.
  Proof. reflexivity. Qed.
  Lemma l_fromGamma r G R u x : 0 < R -> 0 < u -> x < 20 ->
    wake_res (WakeVorticityFromGamma (N := XN) r G (Fin R) (Fin u) (Fin (x * u / R)))
             (WakeVorticityFromGamma (N := XN) (map (scale l) r) (map (scale (l * v)) G) (Fin (l * R)) (Fin (v * u)) (Fin (x * (v * u) / (l * R)))).
  Proof.
    intros HR Hu Hx. unfold WakeVorticityFromGamma. rewrite !l_lambda by (try apply Rmult_lt_0_compat; assumption). rewrite !l_fix.
    replace (nlt XN (Fin x) (nZ XN 20)) with true by (symmetry; apply Rltb_true; exact Hx).
    replace (x * (v * u) / (l * R)) with (v / l * (x * u / R)) by (field; lra).
    exact (l_discr r G (Fin R) (Fin u) (Fin (x * u / R)) (nZ XN 1) true true).
  Qed.
  Lemma l_fromCt minim r c R u x : 0 < R -> 0 < u -> x < 20 ->
    wake_res (WakeVorticityFromCt (N := XN) minim r c (Fin R) (Fin u) (Fin (x * u / R)))
             (WakeVorticityFromCt (N := XN) minim (map (scale l) r) c (Fin (l * R)) (Fin (v * u)) (Fin (x * (v * u) / (l * R)))).
  Proof.
    intros HR Hu Hx. unfold WakeVorticityFromCt. rewrite !l_lambda by (try apply Rmult_lt_0_compat; assumption). rewrite !l_fix.
    replace (nlt XN (Fin x) (nZ XN 20)) with true by (symmetry; apply Rltb_true; exact Hx).
    change (Fin (l * R)) with (scale l (Fin R)). rewrite l_rbar. set (vk := CirculationFromPrescribedCt minim _ c (Fin x) true).
    replace (x * (v * u) / (l * R)) with (v / l * (x * u / R)) by (field; lra).
    assert (E : map (fun k => ndiv XN (nmul XN (nmul XN k (npi XN)) (sq (Fin (v * u) : XN))) (Fin (v / l * (x * u / R)))) vk
              = map (scale (l * v)) (map (fun k => ndiv XN (nmul XN (nmul XN k (npi XN)) (sq (Fin u : XN))) (Fin (x * u / R))) vk)).
    { rewrite map_map. apply map_ext. intros k. change (Fin (v * u)) with (scale v (Fin u)). change (Fin (v / l * (x * u / R))) with (scale (v / l) (Fin (x * u / R))). sw (l * v). uw. }
    rewrite E. exact (l_discr r _ (Fin R) (Fin u) (Fin (x * u / R)) (nZ XN 1) true true).
  Qed.
  Lemma l_norm t : norm (t_U0 (converted l v t)) = scale v (norm (t_U0 t)).
  Proof. eapply u_norm; eassumption. Qed.
  Definition both (p : turbine XN * result unit) : turbine XN * result unit := (converted l v (fst p), snd p).
  Lemma l_update minim r Ct Ga La n t : swirling t La \/ (La = None /\ t_Lambda t = None) ->
    update_loading minim (option_map (map (scale l)) r) Ct (option_map (map (scale (l * v))) Ga) La n None (converted l v t) = both (update_loading minim r Ct Ga La n None t).
  Proof.
    intros HS. unfold update_loading. rewrite l_norm. cbn [converted t_R t_Lambda]. rewrite l_load. 
    unfold mbind, mlift. destruct (load_interp (t_R t) r Ct Ga n) as [[[r' c'] g']|e]; [|reflexivity]. cbn [res_map fst snd].
    destruct HS as [(R & u & x & ER & HR & EU & Hu & EL & Hx)|[-> ->]]; [|reflexivity].
    rewrite EL, ER, EU. change (scale v (Fin u)) with (Fin (v * u)). change (scale l (Fin R)) with (Fin (l * R)).
    rewrite !l_omega by (try apply Rmult_lt_0_compat; assumption).
    destruct c' as [c|].
    - destruct r' as [rr|]; [|reflexivity]. cbn [option_map need Num.bind]. pose proof (l_fromCt minim rr c R u x HR Hu Hx) as H.
      unfold wake_res in H. destruct (WakeVorticityFromCt minim rr c (Fin R) (Fin u) (Fin (x * u / R))) as [w|e], (WakeVorticityFromCt minim (map (scale l) rr) c (Fin (l * R)) (Fin (v * u)) (Fin (x * (v * u) / (l * R)))) as [w'|e']; try contradiction.
      + destruct H as (H1 & H2 & H3). unfold massign, both. cbn [fst snd]. rewrite H1, H2, H3. reflexivity.
      + subst e'. reflexivity.
    - destruct g' as [g|]; cbn [option_map]; [|reflexivity]. destruct r' as [rr|]; [|reflexivity]. cbn [option_map need Num.bind]. pose proof (l_fromGamma rr g R u x HR Hu Hx) as H.
      unfold wake_res in H. destruct (WakeVorticityFromGamma rr g (Fin R) (Fin u) (Fin (x * u / R))) as [w|e], (WakeVorticityFromGamma (map (scale l) rr) (map (scale (l * v)) g) (Fin (l * R)) (Fin (v * u)) (Fin (x * (v * u) / (l * R)))) as [w'|e']; try contradiction.
      + destruct H as (H1 & H2 & H3). unfold massign, both. cbn [fst snd]. rewrite H1, H2, H3. reflexivity.
      + subst e'. reflexivity.
  Qed.
  Lemma l_update_fun minim r Ct Ga La n f f' t : (forall c, f' c = res_map (map (scale v)) (f c)) ->
    update_loading minim (option_map (map (scale l)) r) Ct (option_map (map (scale (l * v))) Ga) La n (Some f') (converted l v t) = both (update_loading minim r Ct Ga La n (Some f) t).
  Proof.
    intros HF. unfold update_loading. cbn [converted t_R t_Lambda]. rewrite l_load. 
    unfold mbind, mlift. destruct (load_interp (t_R t) r Ct Ga n) as [[[r' c'] g']|e]; [|reflexivity]. cbn [res_map fst snd].
    destruct (match La with Some a => Some a | None => t_Lambda t end) as [x|]; [|reflexivity].
    destruct c' as [c|]; [|reflexivity]. rewrite HF. destruct (f c); reflexivity.
  Qed.
End Load.

(** ** The statements *)
(** [converted l v t] is the turbine [t] described with a length unit [l] times smaller and a velocity unit [v] times smaller:
    lengths are multiplied by [l], velocities and vortex sheet strengths by [v], circulations by [l * v]; angles, matrices, unit vectors,
    the thrust coefficient and the tip speed ratio keep their values *)
(** [alike l t o pts]: no comparison of the code with an absolute tolerance (skewed root vortex; models VD and VCFF) changes its outcome at these points *)
Theorem C147_query_partial : forall (l v : R) (t : turbine XN) (o : opts XN) (pts : list (XN * XN * XN)), 0 < l -> 0 < v -> alike l t o pts ->
  compute_u (converted l v t) o (map (scale3 l) pts) =
    (converted l v (fst (compute_u t o pts)), match snd (compute_u t o pts) with Ok us => Ok (map (scale3 v) us) | Err e => Err e end).
Proof. intros. eapply u_compute; eassumption. Qed.
(** the tolerances are met by no point of the models VC and SS without skewed root vortex *)
Theorem C147_alike : forall (l : R) (t : turbine XN) (o : opts XN) (pts : list (XN * XN * XN)),
  no_root t o -> model_of t o <> "VCFF"%string -> model_of t o <> "VD"%string -> alike l t o pts.
Proof. intros l t o pts H1 H2 H3. split; [left; exact H1|]. apply Forall_forall. intros Y _. split; congruence. Qed.

(** the calls that build the turbine and move it *)
Theorem C147_built : forall (l v : R) (R : XN) hub shaft vert U0 Ct La name gr M, 0 < l -> 0 < v ->
  new_turbine (scale l R) (scale3 l hub) shaft vert (scale3 v U0) Ct La name gr M = converted l v (new_turbine R hub shaft vert U0 Ct La name gr M).
Proof. reflexivity. Qed.
Theorem C147_moved : forall (l v : R) (t : turbine XN) yaw p U0 chi,
  update_yaw_pos (converted l v t) yaw = converted l v (update_yaw_pos t yaw) /\
  update_position (converted l v t) (scale3 l p) = converted l v (update_position t p) /\
  update_wind (converted l v t) (scale3 v U0) = converted l v (update_wind t U0) /\
  set_chi (converted l v t) chi = converted l v (set_chi t chi).
Proof. repeat split; reflexivity. Qed.

(** the loading: with swirl, or with the user's own function *)
Theorem C147_loading_partial : forall (l v : R) minim r Ct Gamma Lambda nCyl (t : turbine XN), 0 < l -> 0 < v ->
  swirling t Lambda \/ (Lambda = None /\ t_Lambda t = None) ->
  update_loading minim (option_map (map (scale l)) r) Ct (option_map (map (scale (l * v))) Gamma) Lambda nCyl None (converted l v t) =
    (converted l v (fst (update_loading minim r Ct Gamma Lambda nCyl None t)), snd (update_loading minim r Ct Gamma Lambda nCyl None t)).
Proof. intros. eapply l_update; eassumption. Qed.
Theorem C147_loading_function : forall (l v : R) minim r Ct Gamma Lambda nCyl f f' (t : turbine XN), 0 < l -> 0 < v ->
  (forall c, f' c = match f c with Ok g => Ok (map (scale v) g) | Err e => Err e end) ->
  update_loading minim (option_map (map (scale l)) r) Ct (option_map (map (scale (l * v))) Gamma) Lambda nCyl (Some f') (converted l v t) =
    (converted l v (fst (update_loading minim r Ct Gamma Lambda nCyl (Some f) t)), snd (update_loading minim r Ct Gamma Lambda nCyl (Some f) t)).
Proof. intros. eapply l_update_fun; eassumption. Qed.

(** ** The farm *)
Definition obj_conv (l v : R) (x : @obj XN) : @obj XN := match x with OWT t => OWT (converted l v t) | OOther => OOther end.
Lemma upd_map {A B} (g : A -> B) : forall h i a, upd (map g h) i (g a) = map g (upd h i a).
Proof. induction h as [|x h IH]; intros [|i] a; cbn; auto. f_equal. apply IH. Qed.
Definition all_alike (l : R) (h : heap XN) (f : farm) (o : opts XN) (pts : list (XN * XN * XN)) : Prop :=
  forall i t, In i f -> nth_error h i = Some (OWT t) -> alike l t o pts.
Lemma nth_upd {A} : forall (h : list A) i j a b, nth_error (upd h i a) j = Some b -> nth_error h j = Some b \/ (i = j /\ b = a).
Proof. induction h as [|x h IH]; intros [|i] [|j] a b H; cbn in *; auto; try discriminate; [inversion H; auto|]. destruct (IH i j a b H) as [|[-> ->]]; auto. Qed.
Lemma query_ok l t o o' pts pts' : alike l t o' pts' -> alike l (fst (compute_u t o pts)) o' pts'.
Proof. intros H. exact H. Qed.
Lemma farm_conv l v o pts : 0 < l -> 0 < v -> forall f h u, all_alike l h f (farm_opts o) pts ->
  farm_loop (map (obj_conv l v) h) f o (map (scale3 l) pts) (map (scale3 v) u) =
    (map (obj_conv l v) (fst (farm_loop h f o pts u)), match snd (farm_loop h f o pts u) with Ok us => Ok (map (scale3 v) us) | Err e => Err e end).
Proof.
  intros Hl Hv. induction f as [|i f IH]; intros h u HA; [reflexivity|]. cbn [farm_loop]. rewrite nth_error_map.
  destruct (nth_error h i) as [[t|]|] eqn:E; [|reflexivity..]. cbn [option_map obj_conv].
  pose proof (HA i t (or_introl eq_refl) E) as A1. rewrite (C147_query_partial l v t (farm_opts o) pts Hl Hv A1).
  pose proof (query_ok l t (farm_opts o) (farm_opts o) pts pts A1) as HQ.
  destruct (compute_u t (farm_opts o) pts) as [t' [us|e]]; cbn [fst snd] in *.
  - change (OWT (converted l v t')) with (obj_conv l v (OWT t')). rewrite upd_map. rewrite <- IH.
    + f_equal. eapply u_fadd; eassumption.
    + intros j s Hj Es. apply nth_upd in Es. destruct Es as [Es|[-> Es]]; [apply (HA j s); [right; exact Hj|exact Es]|]. inversion Es; subst s. exact HQ.
  - change (OWT (converted l v t')) with (obj_conv l v (OWT t')). rewrite upd_map. reflexivity.
Qed.
Theorem C147_farm_partial : forall (l v : R) (h : heap XN) (f : farm) (o : opts XN) U0 pts, 0 < l -> 0 < v -> all_alike l h f (farm_opts o) pts ->
  velocity_field (map (obj_conv l v) h) f o (option_map (scale3 v) U0) (map (scale3 l) pts) =
    (map (obj_conv l v) (fst (velocity_field h f o U0 pts)), match snd (velocity_field h f o U0 pts) with Ok us => Ok (map (scale3 v) us) | Err e => Err e end).
Proof.
  intros l v h f o U0 pts Hl Hv HA. unfold velocity_field.
  replace (fzero (map (scale3 l) pts)) with (map (scale3 v) (fzero (N := XN) pts)) by (symmetry; eapply u_fzero; eassumption).
  rewrite farm_conv by assumption. destruct (farm_loop h f o pts (fzero pts)) as [h' [u|e]]; cbn [fst snd Num.bind]; [|reflexivity]. f_equal. f_equal.
  destruct U0 as [U|]; cbn [option_map]; [|reflexivity]. apply map_com. intros a. eapply u_vadd; eassumption.
Qed.

(** ** Without swirl the answer depends on the time unit *)
(** what a single cylinder loaded by [Ct = c] at [Lambda = x >= 20] gets: a correction [c R / (16 pi x^3 u)], which is a time, is added to 1 *)
Lemma Ct_c_val : Ct_c (N := XN) = Fin (4 * (34 / 100) * (1 - 34 / 100)).
Proof. reflexivity. Qed.
Theorem C147_no_swirl : forall minim (t : turbine XN) R u x c, t_R t = Fin R -> 0 < R -> norm (t_U0 t) = Fin u -> 0 < u -> 20 <= x -> 0 < c <= 1 / 2 ->
  c * (1 + c * R / (16 * PI * (x * x * x) * u)) <= 1 ->
  t_gt (fst (update_loading (N := XN) minim (Some [Fin R]) (Some [Fin c]) None (Some (Fin x)) None None t)) =
    Some [Fin (u * (sqrt (1 - c * (1 + c * R / (16 * PI * (x * x * x) * u))) - 1))].
Proof.
  intros minim t R u x c ER HR EU Hu Hx Hc Hap. pose proof PI_RGT_0 as HPI.
  assert (HPU : 0 < PI * (u * u)) by (apply Rmult_lt_0_compat; [exact HPI|nra]).
  unfold update_loading. rewrite EU, ER. cbn [load_interp mlift mbind need Num.bind]. rewrite l_omega by assumption.
  unfold WakeVorticityFromCt. rewrite l_lambda by assumption.
  replace (nlt XN (Fin x) (nZ XN 20)) with false by (symmetry; apply Rltb_false; exact Hx).
  unfold CirculationFromPrescribedCt. rewrite l_fix. cbn [map].
  assert (HOm : 0 < x * u / R) by (apply Rdiv_lt_0_compat; nra). set (Om := x * u / R) in *.
  assert (EG : ndiv XN (nmul XN (nmul XN (Fin c) (npi XN)) (sq (Fin u : XN))) (Fin Om) = Fin (c * PI * (u * u) / Om)).
  { cbn. destruct (Reqb_spec Om 0); [lra|]. reflexivity. }
  rewrite EG. unfold WakeVorticityFromCirculation_Discr. cbn [default_r_cyl].
  cbn [amax fold_left]. replace (nlt XN (Fin R) (Fin R)) with false by (symmetry; apply Rltb_false; lra).
  replace (neqb XN (Fin R) (nZ XN 0)) with false by (symmetry; apply Reqb_false; cbn; lra).
  cbn [map ap_conv map2 fst snd].
  set (G := nmul XN (Fin (c * PI * (u * u) / Om)) (nZ XN 1)). assert (EG1 : G = Fin (c * PI * (u * u) / Om)) by (unfold G; cbn; f_equal; ring).
  rewrite EG1. clear G EG1. set (g := c * PI * (u * u) / Om).
  set (ap := ndiv XN (Fin g) (sq _)). assert (EA : ap = Fin (c * R / (16 * PI * (x * x * x) * u))).
  { unfold ap. cbn. destruct (Reqb_spec (4 * PI * Om * R * (4 * PI * Om * R)) 0) as [E|_].
    - exfalso. assert (0 < 4 * PI * Om * R) by (apply Rmult_lt_0_compat; [apply Rmult_lt_0_compat; [lra|exact HOm]|exact HR]). nra.
    - f_equal. unfold g, Om. field. repeat split; nra. }
  rewrite EA. clear ap EA. set (a := c * R / (16 * PI * (x * x * x) * u)) in *.
  assert (EK : ndiv XN (nmul XN (Fin g) (Fin Om)) (nmul XN (npi XN) (sq (Fin u : XN))) = Fin c).
  { cbn. destruct (Reqb_spec (PI * (u * u)) 0) as [E|_]; [exfalso; lra|]. f_equal. unfold g. field. repeat split; lra. }
  rewrite EK. cbn [dloop fold_right dinit]. unfold dstep. cbn [d_next d_gs d_rl].
  set (hi := nlt XN Ct_c (nsub XN (Fin c) (nZ XN 0))). assert (EH : hi = false).
  { unfold hi. rewrite Ct_c_val. apply Rltb_false. cbn. lra. }
  rewrite EH. cbn [andb]. clear hi EH. 
  match goal with |- _ = ?rhs => change (Some [nmul XN (nadd XN (nopp XN (nZ XN 1)) (nsqrt XN (nsub XN (nZ XN 1) (nmul XN (Fin c) (nadd XN (nZ XN 1) (Fin a)))))) (Fin u)] = rhs) end.
  cbn. destruct (Rltb_spec (1 - c * (1 + a)) 0); [lra|]. cbn. do 3 f_equal. ring.
Qed.
Lemma gt_inj (p q : R) : Some [Fin p : XN] = Some [Fin q : XN] -> p = q.
Proof. intros H. inversion H. reflexivity. Qed.
Lemma gt_eq (p q : R) : p = q -> Some [Fin p : XN] = Some [Fin q : XN].
Proof. intros ->. reflexivity. Qed.
(** in other units the two answers are the same velocity exactly when the time unit is unchanged *)
Theorem C147_time_unit : forall (l v : R) minim (t : turbine XN) R u x c, 0 < l -> 0 < v -> t_R t = Fin R -> 0 < R -> norm (t_U0 t) = Fin u -> 0 < u -> 20 <= x -> 0 < c <= 1 / 2 ->
  c * (1 + c * R / (16 * PI * (x * x * x) * u)) <= 1 -> c * (1 + c * (l * R) / (16 * PI * (x * x * x) * (v * u))) <= 1 ->
  (t_gt (fst (update_loading (N := XN) minim (Some [scale l (Fin R)]) (Some [Fin c]) None (Some (Fin x)) None None (converted l v t))) =
   t_gt (converted l v (fst (update_loading (N := XN) minim (Some [Fin R]) (Some [Fin c]) None (Some (Fin x)) None None t)))
   <-> l = v).
Proof.
  intros l v minim t R u x c Hl Hv ER HR EU Hu Hx Hc H1 H2. pose proof PI_RGT_0 as HPI.
  assert (EU' : norm (t_U0 (converted l v t)) = Fin (v * u)) by (erewrite l_norm by eassumption; rewrite EU; reflexivity).
  assert (ER' : t_R (converted l v t) = Fin (l * R)) by (cbn [converted t_R]; rewrite ER; reflexivity).
  assert (HR' : 0 < l * R) by (apply Rmult_lt_0_compat; assumption). assert (Hu' : 0 < v * u) by (apply Rmult_lt_0_compat; assumption).
  change (scale l (Fin R)) with (Fin (l * R)). change (t_gt (converted l v ?a)) with (option_map (map (scale v)) (t_gt a)).
  pose proof (C147_no_swirl minim (converted l v t) (l * R) (v * u) x c ER' HR' EU' Hu' Hx Hc H2) as A2.
  match type of A2 with ?a = _ => match goal with |- (?b = _ <-> _) => change b with a end end.
  rewrite A2, (C147_no_swirl minim t R u x c ER HR EU Hu Hx Hc H1).
  cbn [option_map map scale]. assert (HX : 0 < 16 * PI * (x * x * x)) by (apply Rmult_lt_0_compat; [lra|repeat apply Rmult_lt_0_compat; lra]).
  set (D := 16 * PI * (x * x * x)) in *. clearbody D. split.
  - intros E. assert (E1 : v * u * (sqrt (1 - c * (1 + c * (l * R) / (D * (v * u)))) - 1) = v * (u * (sqrt (1 - c * (1 + c * R / (D * u))) - 1))).
    { exact (gt_inj _ _ E). }
    rewrite Rmult_assoc in E1. apply Rmult_eq_reg_l in E1; [|lra]. apply Rmult_eq_reg_l in E1; [|lra].
    assert (E2 : sqrt (1 - c * (1 + c * (l * R) / (D * (v * u)))) = sqrt (1 - c * (1 + c * R / (D * u)))) by lra.
    apply sqrt_inj in E2; [|lra|lra]. assert (E3 : c * (c * (l * R) / (D * (v * u))) = c * (c * R / (D * u))) by lra.
    apply Rmult_eq_reg_l in E3; [|lra]. apply (f_equal (fun z => z * (D * u) / (c * R))) in E3.
    replace (c * (l * R) / (D * (v * u)) * (D * u) / (c * R)) with (l / v) in E3 by (field; repeat split; lra).
    replace (c * R / (D * u) * (D * u) / (c * R)) with 1 in E3 by (field; repeat split; lra).
    apply (f_equal (fun z => z * v)) in E3. replace (l / v * v) with l in E3 by (field; lra). lra.
  - intros <-. apply gt_eq. replace (c * (l * R) / (D * (l * u))) with (c * R / (D * u)) by (field; repeat split; lra). ring.
Qed.
(** the full property: no choice of units changes what a loading does *)
Definition C147_full : Prop := forall (l v : R) minim r Ct Gamma Lambda nCyl (t : turbine XN), 0 < l -> 0 < v ->
  update_loading minim (option_map (map (scale l)) r) Ct (option_map (map (scale (l * v))) Gamma) Lambda nCyl None (converted l v t) =
    (converted l v (fst (update_loading minim r Ct Gamma Lambda nCyl None t)), snd (update_loading minim r Ct Gamma Lambda nCyl None t)).
Definition ex_units : turbine XN := new_turbine (N := XN) (Fin 1) (Fin 0, Fin 0, Fin 0) (Fin 1, Fin 0, Fin 0) (Fin 0, Fin 0, Fin 1) (Fin 1, Fin 0, Fin 0) None None "" false "VC".
Lemma ex_units_wind : norm (t_U0 ex_units) = Fin 1.
Proof. cbn. destruct (Rltb_spec (1 * 1 + 0 * 0 + 0 * 0) 0); [lra|]. f_equal. replace (1 * 1 + 0 * 0 + 0 * 0) with 1 by ring. apply sqrt_1. Qed.
Theorem C147_refuted : ~ C147_full.
Proof.
  intros H. pose proof (H 1 2 (fun _ _ _ => Fin 0) (Some [Fin 1]) (Some [Fin (1 / 2)]) None (Some (Fin 20)) None ex_units ltac:(lra) ltac:(lra)) as E. clear H.
  apply (f_equal (fun p => t_gt (fst p))) in E. cbn [fst option_map map] in E. pose proof PI_RGT_0 as HPI. pose proof PI2_1 as P3.
  assert (HB : forall k, 0 < k -> k <= 1 -> 1 / 2 * (1 + 1 / 2 * k / (16 * PI * (20 * 20 * 20) * 1)) <= 1).
  { intros k K0 K1. assert (1 / 2 * k / (16 * PI * (20 * 20 * 20) * 1) <= 1); [|lra]. apply Rmult_le_reg_r with (16 * PI * (20 * 20 * 20) * 1); [lra|].
    unfold Rdiv at 1. rewrite Rmult_assoc, Rinv_l by lra. lra. }
  refine (_ (proj1 (C147_time_unit 1 2 (fun _ _ _ => Fin 0) ex_units 1 1 20 (1 / 2) ltac:(lra) ltac:(lra) eq_refl ltac:(lra) ex_units_wind ltac:(lra) ltac:(lra) ltac:(lra) _ _) E)).
  - lra.
  - apply HB; lra.
  - replace (1 / 2 * (1 * 1) / (16 * PI * (20 * 20 * 20) * (2 * 1))) with (1 / 2 * (1 / 2) / (16 * PI * (20 * 20 * 20) * 1)) by (field; lra). apply HB; lra.
Qed.

(** ** The absolute tolerances *)
(** one micrometre from the hub, abeam of the root vortex: the answer is 0 in metres and not 0 in units of one centimetre *)
Theorem C147_root_line_refuted : 
  vl_semiinf_u (N := XN) (Fin (1 / 1000000)) (Fin 0) (Fin 0) (Fin 0) (Fin 0) (Fin 1) (Fin 1) 0 (nZ XN 0) = Ok VLsing /\
  exists ux uy uz, vl_semiinf_u (N := XN) (scale 100 (Fin (1 / 1000000))) (scale 100 (Fin 0)) (scale 100 (Fin 0)) (Fin 0) (Fin 0) (Fin 1) (scale (100 * 1) (Fin 1)) 0 (nZ XN 0) = Ok (VLvec (ux : XN) (Fin uy : XN) uz) /\ 0 < uy.
Proof.
  assert (EN : forall d, 0 < d -> nsqrt XN (nadd XN (nadd XN (sq (Fin d : XN)) (sq (Fin 0 : XN))) (sq (Fin 0 : XN))) = Fin d).
  { intros d Hd. cbn. destruct (Rltb_spec (d * d + 0 * 0 + 0 * 0) 0); [nra|]. f_equal. replace (d * d + 0 * 0 + 0 * 0) with (d * d) by ring. apply sqrt_square. lra. }
  split.
  - unfold vl_semiinf_u. rewrite EN by lra. replace (nlt XN (Fin (1 / 1000000)) (nQ XN 1 100000)) with true by (symmetry; apply Rltb_true; cbn; lra). rewrite orb_true_r. reflexivity.
  - assert (E0 : scale 100 (Fin 0) = Fin 0) by (cbn; f_equal; ring). assert (E1 : scale 100 (Fin (1 / 1000000)) = Fin (1 / 10000)) by (cbn; f_equal; lra). rewrite E0, E1.
    unfold vl_semiinf_u. rewrite EN by lra.
    set (den := nmul XN (Fin (1 / 10000)) _). assert (ED : den = Fin (1 / 100000000)) by (unfold den; cbn; f_equal; field). rewrite ED. clear den ED.
    replace (nlt XN (Fin (1 / 100000000)) (nQ XN 1 1000000000000)) with false by (symmetry; apply Rltb_false; cbn; lra).
    replace (nlt XN (Fin (1 / 10000)) (nQ XN 1 100000)) with false by (symmetry; apply Rltb_false; cbn; lra).
    cbn [orb andb Z.leb Z.eqb Z.compare]. pose proof PI_RGT_0 as HPI.
    eexists _, (100 / (4 * PI) / (1 / 100000000) * (1 / 10000)), _. split.
    + match goal with |- Ok (VLvec ?a ?b ?c) = Ok (VLvec _ ?y _) => assert (EY : b = y); [|rewrite EY; reflexivity] end. cbn.
      destruct (Reqb_spec 4 0) as [E|_]; [lra|]. cbn. destruct (Reqb_spec PI 0) as [E|_]; [lra|]. cbn. destruct (Reqb_spec (1 / 100000000) 0) as [E|_]; [lra|]. cbn. f_equal. field. lra.
    + apply Rmult_lt_0_compat; [|lra]. repeat apply Rdiv_lt_0_compat; lra.
Qed.
(** ** Examples *)
Example C147_nonvacuous : swirling (set_Lambda ex_units (Some (Fin 7))) None /\
  (forall l g pts, alike l (set_gt ex_units (Some [Fin g])) default_opts pts) /\
  (forall l pts, all_alike l [OOther; OWT (set_gt ex_units (Some [Fin (-1)]))] [1]%nat (farm_opts default_opts) pts) /\
  (* in centimetres, three metres upstream of a doublet wake *)
  ff_tests (scale3 100 (Fin 0, Fin 0, Fin (-3))) = ff_tests (Fin 0, Fin 0, Fin (-3)) /\ on_line (scale3 100 (Fin 0, Fin 0, Fin (-3))) = on_line (Fin 0, Fin 0, Fin (-3)).
Proof.
  split; [|split; [|split; [|split]]].
  - exists 1, 1, 7. split; [reflexivity|]. split; [lra|]. split; [exact ex_units_wind|]. split; [lra|]. split; [reflexivity|lra].
  - intros l g pts. apply C147_alike; [right; right; left; reflexivity|discriminate|discriminate].
  - intros l pts i t [<-|[]] E. inversion E; subst t. apply C147_alike; [right; right; left; reflexivity|discriminate|discriminate].
  - assert (ER : forall z, vc_r (Fin 0 : XN, Fin 0 : XN, z) = Fin 0).
    { intros z. cbn. destruct (Rltb_spec (0 * 0 + 0 * 0) 0); [lra|]. f_equal. replace (0 * 0 + 0 * 0) with 0 by ring. apply sqrt_0. }
    unfold ff_tests, scale3. replace (scale 100 (Fin 0)) with (Fin 0 : XN) by (cbn; f_equal; ring). rewrite !ER. cbn. rewrite (Rabs_left (100 * -3)), (Rabs_left (-3)), Rabs_R0 by lra.
    f_equal; [f_equal; [f_equal; f_equal|]|].
    + rewrite !(proj2 (Rltb_false _ _)) by lra. reflexivity.
    + rewrite !(proj2 (Rltb_false _ _)) by lra. reflexivity.
    + rewrite !(proj2 (Rltb_true _ _)) by lra. reflexivity.
  - unfold on_line, scale3. replace (nle XN (nZ XN 0) (scale 100 (Fin (-3)))) with false by (symmetry; apply Rleb_false; lra).
    replace (nle XN (nZ XN 0) (Fin (-3))) with false by (symmetry; apply Rleb_false; cbn; lra). rewrite !andb_false_r. reflexivity.
Qed.
