(** * Integrals of closed forms around a circle and around an ellipse *)
From Coquelicot Require Import Coquelicot.
From Coq Require Import ZArith List Bool Arith Lia String Reals Lra Psatz.
From Verif Require Import Num NumR L_Calc L_Ell P_Cylinder3 P_Potential.
Local Open Scope R_scope.

Ltac c2d' :=
  lazymatch goal with
  | |- continuity_2d_pt (fun u v => u) _ _ => apply continuity_2d_pt_id1
  | |- continuity_2d_pt (fun u v => v) _ _ => apply continuity_2d_pt_id2
  | |- continuity_2d_pt (fun _ _ => ?c) _ _ => apply continuity_2d_pt_const
  | |- continuity_2d_pt (fun u v => (@?f u v) + (@?g u v)) _ _ => apply (continuity_2d_pt_plus f g); c2d'
  | |- continuity_2d_pt (fun u v => (@?f u v) - (@?g u v)) _ _ => apply (continuity_2d_pt_minus f g); c2d'
  | |- continuity_2d_pt (fun u v => (@?f u v) * (@?g u v)) _ _ => apply (continuity_2d_pt_mult f g); c2d'
  | |- continuity_2d_pt (fun u v => - (@?f u v)) _ _ => apply (continuity_2d_pt_opp f); c2d'
  | |- continuity_2d_pt (fun u v => / (@?f u v)) _ _ => apply (continuity_2d_pt_inv f); [c2d'|]
  | |- continuity_2d_pt (fun u v => cos (@?f u v)) _ _ => apply (continuity_1d_2d_pt_comp cos f); [apply continuity_cos|c2d']
  | |- continuity_2d_pt (fun u v => sin (@?f u v)) _ _ => apply (continuity_1d_2d_pt_comp sin f); [apply continuity_sin|c2d']
  | |- continuity_2d_pt (fun u v => exp (@?f u v)) _ _ => apply (continuity_1d_2d_pt_comp exp f); [apply derivable_continuous; apply derivable_exp|c2d']
  | |- continuity_2d_pt (fun u v => sqrt (@?f u v)) _ _ => apply (continuity_1d_2d_pt_comp sqrt f); [apply continuity_pt_filterlim; apply continuous_sqrt|c2d']
  | |- _ => idtac
  end.

(** a one-parameter family of integrals whose derivative is exact does not depend on the parameter *)
Lemma homotopy (f q D : R -> R -> R) (P : R -> Prop) a b : a <= b -> (forall u, a <= u <= b -> locally u P) ->
  (forall u t, P u -> is_derive (fun w => f w t) u (D u t)) -> (forall u t, P u -> is_derive (fun w => q u w) t (D u t)) ->
  (forall u t, P u -> continuity_2d_pt D u t) -> (forall u, P u -> forall t, continuous (f u) t) -> (forall u, P u -> q u (2 * PI) = q u 0) ->
  RInt (f a) 0 (2 * PI) = RInt (f b) 0 (2 * PI).
Proof.
  intros [hab|<-] HL Hf Hq HC Hc Hp; [|reflexivity].
  apply (eq_is_derive (fun u => RInt (f u) 0 (2 * PI)) a b); auto. intros u Hu. specialize (HL u Hu). pose proof (locally_singleton _ _ HL) as Pu.
  change (is_derive (fun u => RInt (f u) 0 (2 * PI)) u 0).
  apply (param_deriv f D (fun u => RInt (f u) 0 (2 * PI)) P 0 (2 * PI) u 0); auto.
  - intros w Pw. apply cont_is_RInt. apply Hc; auto.
  - replace 0 with (q u (2 * PI) - q u 0) at 2 by (rewrite (Hp u Pu); ring). apply (is_RInt_derive (q u) (D u)).
    + intros x _. apply Hq; auto.
    + intros x _. apply cont_2d_1d. apply HC; auto.
Qed.
Lemma pos_open (h : R -> R) x : continuous h x -> 0 < h x -> locally x (fun u => 0 < h u).
Proof. intros C H. apply (C (fun v => 0 < v)). apply (open_gt 0); auto. Qed.
Lemma RInt_close (f : R -> R) L B : (forall t, continuous f t) -> (forall t, Rabs (f t - L) <= B) -> Rabs (RInt f 0 (2 * PI) - 2 * PI * L) <= 2 * PI * B.
Proof.
  intros Hc HB. pose proof PI_RGT_0.
  assert (I : is_RInt (fun t => f t - L) 0 (2 * PI) (RInt f 0 (2 * PI) - 2 * PI * L)).
  { replace (2 * PI * L) with ((2 * PI - 0) * L) by ring. apply (is_RInt_minus f (fun _ => L) 0 (2 * PI) (RInt f 0 (2 * PI)) ((2 * PI - 0) * L)); [apply cont_is_RInt; auto|apply (is_RInt_const 0 (2 * PI) L)]. }
  assert (K : Rabs (RInt f 0 (2 * PI) - 2 * PI * L) <= (2 * PI - 0) * B) by (apply (norm_RInt_le_const (fun t => f t - L) 0 (2 * PI) _ B); [lra| |exact I]; intros x _; apply HB). lra.
Qed.
Lemma small_eq (x L C s0 : R) : 0 <= s0 -> (forall s, s0 <= s -> Rabs (x - L) <= C / (1 + s)) -> x = L.
Proof.
  intros Hs0 H. destruct (Req_dec x L) as [|NE]; auto. exfalso. assert (0 < Rabs (x - L)) by (apply Rabs_pos_lt; lra). set (d := Rabs (x - L)) in *.
  assert (C0 : 0 < C). { specialize (H s0 ltac:(lra)). apply (Rmult_le_compat_r (1 + s0)) in H; [|lra]. replace (C / (1 + s0) * (1 + s0)) with C in H by (field; lra). nra. }
  assert (S : 0 <= C / d) by (apply Rlt_le, Rdiv_lt_0_compat; auto). specialize (H (s0 + C / d) ltac:(lra)).
  apply (Rmult_le_compat_r (1 + (s0 + C / d))) in H; [|lra]. replace (C / (1 + (s0 + C / d)) * (1 + (s0 + C / d))) with C in H by (field; split; nra). replace (d * (1 + (s0 + C / d))) with (d * (1 + s0) + C) in H by (field; lra). nra.
Qed.

(** ** The Cauchy integrals of exp(+-i th)/(W - w0) around the ellipse W = R cos th + i kap R sin th, for w0 = X + i Y inside *)
Section Ellipse.
  Variables (Rr kap X Y : R).
  Hypotheses (hR : 0 < Rr) (hk : 1 <= kap) (inside : kap * kap * (X * X) + Y * Y < kap * kap * (Rr * Rr)).
  Definition al (s : R) : R := Rr * ((1 + kap) / 2 * exp s + (1 - kap) / 2 * exp (- s)).
  Definition be (s : R) : R := Rr * ((1 + kap) / 2 * exp s - (1 - kap) / 2 * exp (- s)).
  Definition d1 (s t : R) : R := al s * cos t - X.
  Definition d2 (s t : R) : R := be s * sin t - Y.
  Definition DD (s t : R) : R := d1 s t * d1 s t + d2 s t * d2 s t.
  (** real and imaginary parts of exp(e (s + i t)) / (d1 + i d2), e = 1 or -1 *)
  Definition re (e s t : R) : R := exp (e * s) * ((cos t * d1 s t + e * sin t * d2 s t) * / DD s t).
  Definition im (e s t : R) : R := exp (e * s) * ((e * sin t * d1 s t - cos t * d2 s t) * / DD s t).
  Definition Pin (s : R) : Prop := 0 < (al s * al s) * (be s * be s) - (X * X * (be s * be s) + Y * Y * (al s * al s)).
  Lemma DD_pos s t : Pin s -> 0 < DD s t.
  Proof using.
    unfold Pin, DD. intros H. pose proof (Rsq_pos (d1 s t)) as A. pose proof (Rsq_pos (d2 s t)) as B. destruct (Req_dec (d1 s t) 0) as [E1|E1]; [destruct (Req_dec (d2 s t) 0) as [E2|E2]|].
    - exfalso. unfold d1, d2 in E1, E2. assert (EX : X = al s * cos t) by lra. assert (EY : Y = be s * sin t) by lra. rewrite EX, EY in H. pose proof (sin2_cos2 t) as SC. unfold Rsqr in SC.
      replace (al s * cos t * (al s * cos t) * (be s * be s) + be s * sin t * (be s * sin t) * (al s * al s)) with (al s * al s * (be s * be s) * (sin t * sin t + cos t * cos t)) in H by ring. rewrite SC in H. lra.
    - pose proof (Rsq_lt (d2 s t) E2). lra.
    - pose proof (Rsq_lt (d1 s t) E1). lra.
  Qed.
  Lemma al_ge s : 0 <= s -> Rr * exp s <= al s /\ kap * Rr <= be s /\ al s <= be s /\ 1 <= exp s.
  Proof using hR hk.
    intros hs. assert (E1 : 1 <= exp s) by (rewrite <- exp_0; destruct hs as [h|<-]; [apply Rlt_le, exp_increasing; auto|lra]).
    assert (E2 : exp (- s) * exp s = 1) by (rewrite <- exp_plus; replace (- s + s) with 0 by ring; apply exp_0). pose proof (exp_pos (- s)) as E3.
    assert (E4 : exp (- s) <= 1) by nra. unfold al, be. set (e := exp s) in *. set (i := exp (- s)) in *. repeat split; auto.
    - apply Rmult_le_compat_l; [lra|]. nra.
    - rewrite (Rmult_comm kap). apply Rmult_le_compat_l; [lra|]. assert (e + i >= 2) by nra. nra.
    - apply Rmult_le_compat_l; [lra|]. nra.
  Qed.
  Lemma Pin_ok s : 0 <= s -> Pin s.
  Proof using hR hk inside.
    intros hs. destruct (al_ge s hs) as (A1 & A2 & A3 & A4). assert (A : Rr <= al s) by nra. unfold Pin. set (a := al s) in *. set (b := be s) in *.
    assert (AA : Rr * Rr <= a * a) by nra. assert (BB : (kap * Rr) * (kap * Rr) <= b * b) by (apply Rmult_le_compat; nra).
    pose proof (Rsq_pos X) as XX. pose proof (Rsq_pos Y) as YY. assert (K2 : 0 < kap * kap) by nra. assert (R2 : 0 < Rr * Rr) by nra.
    (* X^2/a^2 + Y^2/b^2 <= X^2/R^2 + Y^2/(kR)^2 < 1 *)
    assert (T : X * X * (b * b) * (kap * kap * (Rr * Rr)) + Y * Y * (a * a) * (kap * kap * (Rr * Rr)) < a * a * (b * b) * (kap * kap * (Rr * Rr))).
    { apply Rle_lt_trans with (a * a * (b * b) * (kap * kap * (X * X) + Y * Y)).
      - assert (U1 : X * X * (b * b) * (kap * kap * (Rr * Rr)) <= X * X * (b * b) * (kap * kap * (a * a))) by (apply Rmult_le_compat_l; [apply Rmult_le_pos; [lra|nra]|apply Rmult_le_compat_l; lra]).
        assert (U2 : Y * Y * (a * a) * (kap * kap * (Rr * Rr)) <= Y * Y * (a * a) * (b * b)) by (apply Rmult_le_compat_l; [apply Rmult_le_pos; [lra|nra]|lra]). nra.
      - apply Rmult_lt_compat_l; [|exact inside]. apply Rmult_lt_0_compat; nra. }
    assert (K : 0 < kap * kap * (Rr * Rr)) by (apply Rmult_lt_0_compat; lra). apply (Rmult_lt_reg_r (kap * kap * (Rr * Rr))); auto. lra.
  Qed.
  Lemma Pin_open s : Pin s -> locally s Pin.
  Proof using.
    intros H. apply (pos_open (fun s => (al s * al s) * (be s * be s) - (X * X * (be s * be s) + Y * Y * (al s * al s)))); auto.
    apply (@ex_derive_continuous R_AbsRing R_NormedModule). unfold al, be. auto_derive. auto.
  Qed.
  (** common derivative *)
  Definition dre (e s t : R) : R := exp (e * s) * ((e * cos t * d1 s t + cos t * (be s * cos t) + (sin t * d2 s t + e * sin t * (al s * sin t))) * / DD s t
     - (cos t * d1 s t + e * sin t * d2 s t) * (2 * d1 s t * (be s * cos t) + 2 * d2 s t * (al s * sin t)) * / (DD s t * DD s t)).
  Definition dim (e s t : R) : R := exp (e * s) * ((sin t * d1 s t + e * sin t * (be s * cos t) - (e * cos t * d2 s t + cos t * (al s * sin t))) * / DD s t
     - (e * sin t * d1 s t - cos t * d2 s t) * (2 * d1 s t * (be s * cos t) + 2 * d2 s t * (al s * sin t)) * / (DD s t * DD s t)).
  Lemma al_d s : is_derive al s (be s).
  Proof using. unfold al, be. auto_derive; auto. field. Qed.
  Lemma be_d s : is_derive be s (al s).
  Proof using. unfold al, be. auto_derive; auto. field. Qed.
  Lemma DD_ds s t : is_derive (fun s => DD s t) s (2 * d1 s t * (be s * cos t) + 2 * d2 s t * (al s * sin t)).
  Proof using.
    pose proof (al_d s) as A. pose proof (be_d s) as B. pose proof (is_derive_unique (fun x : R => al x) _ _ A) as A'. pose proof (is_derive_unique (fun x : R => be x) _ _ B) as B'. pose proof (ex_intro _ _ A : ex_derive al s) as EA. pose proof (ex_intro _ _ B : ex_derive be s) as EB.
    unfold DD, d1, d2. auto_derive; [repeat split; auto|]. rewrite A', B'. ring.
  Qed.
  Lemma DD_dt s t : is_derive (DD s) t (2 * d1 s t * (- al s * sin t) + 2 * d2 s t * (be s * cos t)).
  Proof using. unfold DD, d1, d2. auto_derive; auto. ring. Qed.
  Lemma e_cases e : e * e = 1 -> e = 1 \/ e = -1.
  Proof using. intros H. destruct (Rmult_integral (e - 1) (e + 1)); nra. Qed.
  Lemma re_ds e s t : e * e = 1 -> Pin s -> is_derive (fun s => re e s t) s (dre e s t).
  Proof using.
    intros He Hp. pose proof (DD_pos s t Hp) as D0. pose proof (al_d s) as A. pose proof (be_d s) as B. pose proof (DD_ds s t) as D. 
    pose proof (is_derive_unique (fun x : R => al x) _ _ A) as A'. pose proof (is_derive_unique (fun x : R => be x) _ _ B) as B'. pose proof (is_derive_unique (fun x : R => DD x t) _ _ D) as D'.
    pose proof (ex_intro _ _ A : ex_derive al s) as EA. pose proof (ex_intro _ _ B : ex_derive be s) as EB. pose proof (ex_intro _ _ D : ex_derive (fun x => DD x t) s) as ED.
    unfold re, dre. unfold d1, d2 in *. auto_derive; [repeat split; auto; lra|]. rewrite A', B', D'. unfold d1, d2.
    replace (sin t * (be s * sin t - Y)) with (e * e * sin t * (be s * sin t - Y)) by (rewrite He; ring). field. lra.
  Qed.
  Lemma im_ds e s t : e * e = 1 -> Pin s -> is_derive (fun s => im e s t) s (dim e s t).
  Proof using.
    intros He Hp. pose proof (DD_pos s t Hp) as D0. pose proof (al_d s) as A. pose proof (be_d s) as B. pose proof (DD_ds s t) as D. 
    pose proof (is_derive_unique (fun x : R => al x) _ _ A) as A'. pose proof (is_derive_unique (fun x : R => be x) _ _ B) as B'. pose proof (is_derive_unique (fun x : R => DD x t) _ _ D) as D'.
    pose proof (ex_intro _ _ A : ex_derive al s) as EA. pose proof (ex_intro _ _ B : ex_derive be s) as EB. pose proof (ex_intro _ _ D : ex_derive (fun x => DD x t) s) as ED.
    unfold im, dim. unfold d1, d2 in *. auto_derive; [repeat split; auto; lra|]. rewrite A', B', D'. unfold d1, d2.
    replace (sin t * (al s * cos t - X)) with (e * e * sin t * (al s * cos t - X)) by (rewrite He; ring). field. lra.
  Qed.
  Lemma im_dt e s t : e * e = 1 -> Pin s -> is_derive (fun t => im e s t) t (dre e s t).
  Proof using.
    intros He Hp. pose proof (DD_pos s t Hp) as D0. pose proof (DD_dt s t) as D. 
    pose proof (is_derive_unique (fun x : R => DD s x) _ _ D) as D'. pose proof (ex_intro _ _ D : ex_derive (fun x => DD s x) t) as ED.
    unfold im, dre. unfold d1, d2 in *. auto_derive; [repeat split; auto; lra|]. rewrite D'. unfold d1, d2.
    assert (DE : DD s t = (al s * cos t - X) * (al s * cos t - X) + (be s * sin t - Y) * (be s * sin t - Y)) by reflexivity.
    set (a := al s) in *. set (b := be s) in *. set (C := cos t) in *. set (S := sin t) in *. set (E := DD s t) in *.
    set (p := a * C - X) in *. set (q := b * S - Y) in *.
    replace (a * C + - X) with p by (unfold p; ring). replace (b * S + - Y) with q by (unfold q; ring).
    clearbody p q a b C S E. clear D D' ED Hp.
    apply (Rmult_eq_reg_r (E * E)); [|nra]. destruct (e_cases e He) as [-> | ->]; field_simplify; try lra; rewrite DE; ring.
  Qed.
  Lemma re_dt e s t : e * e = 1 -> Pin s -> is_derive (fun t => - re e s t) t (dim e s t).
  Proof using.
    intros He Hp. pose proof (DD_pos s t Hp) as D0. pose proof (DD_dt s t) as D. 
    pose proof (is_derive_unique (fun x : R => DD s x) _ _ D) as D'. pose proof (ex_intro _ _ D : ex_derive (fun x => DD s x) t) as ED.
    unfold re, dim. unfold d1, d2 in *. auto_derive; [repeat split; auto; lra|]. rewrite D'. unfold d1, d2.
    assert (DE : DD s t = (al s * cos t - X) * (al s * cos t - X) + (be s * sin t - Y) * (be s * sin t - Y)) by reflexivity.
    set (a := al s) in *. set (b := be s) in *. set (C := cos t) in *. set (S := sin t) in *. set (E := DD s t) in *.
    set (p := a * C - X) in *. set (q := b * S - Y) in *.
    replace (a * C + - X) with p by (unfold p; ring). replace (b * S + - Y) with q by (unfold q; ring).
    clearbody p q a b C S E. clear D D' ED Hp.
    apply (Rmult_eq_reg_r (E * E)); [|nra]. destruct (e_cases e He) as [-> | ->]; field_simplify; try lra; rewrite DE; ring.
  Qed.
  Ltac cD := let u := fresh in let t := fresh in let H := fresh in intros u t H; pose proof (DD_pos u t H); unfold dre, dim, DD, d1, d2, al, be in *; c2d'; try lra; try nra.
  Lemma dre_c e s t : Pin s -> continuity_2d_pt (dre e) s t.
  Proof using. revert s t. cD. Qed.
  Lemma dim_c e s t : Pin s -> continuity_2d_pt (dim e) s t.
  Proof using. revert s t. cD. Qed.
  Lemma re_c e s t : e * e = 1 -> Pin s -> continuous (re e s) t.
  Proof using. intros He Hp. apply (continuous_ext (fun t => - - re e s t)); [intros; apply Ropp_involutive|]. apply (continuous_opp (fun t => - re e s t)). apply (@ex_derive_continuous R_AbsRing R_NormedModule). exists (dim e s t). apply re_dt; auto. Qed.
  Lemma im_c e s t : e * e = 1 -> Pin s -> continuous (im e s) t.
  Proof using. intros He Hp. apply (@ex_derive_continuous R_AbsRing R_NormedModule). exists (dre e s t). apply im_dt; auto. Qed.
  Lemma per e s : re e s (2 * PI) = re e s 0 /\ im e s (2 * PI) = im e s 0.
  Proof using. unfold re, im, DD, d1, d2. rewrite cos_2PI, sin_2PI, cos_0, sin_0. auto. Qed.
  Lemma re_const e s : e * e = 1 -> 0 <= s -> RInt (re e 0) 0 (2 * PI) = RInt (re e s) 0 (2 * PI).
  Proof using hR hk inside.
    intros He hs. apply (homotopy (re e) (im e) (dre e) Pin 0 s); auto.
    - intros u Hu. apply Pin_open, Pin_ok; lra.
    - intros; apply re_ds; auto.
    - intros; apply im_dt; auto.
    - intros; apply dre_c; auto.
    - intros; apply re_c; auto.
    - intros; apply per.
  Qed.
  Lemma im_const e s : e * e = 1 -> 0 <= s -> RInt (im e 0) 0 (2 * PI) = RInt (im e s) 0 (2 * PI).
  Proof using hR hk inside.
    intros He hs. apply (homotopy (im e) (fun s t => - re e s t) (dim e) Pin 0 s); auto.
    - intros u Hu. apply Pin_open, Pin_ok; lra.
    - intros; apply im_ds; auto.
    - intros; apply re_dt; auto.
    - intros; apply dim_c; auto.
    - intros; apply im_c; auto.
    - intros u _. f_equal. apply per.
  Qed.
  Lemma frac s t n1 n2 : 2 * kap <= s -> Rabs n1 <= 3 -> Rabs n2 <= 3 -> Rabs ((n1 * d1 s t + n2 * d2 s t) * / DD s t) <= 12 / Rr / (1 + s).
  Proof using hR hk inside.
    intros hs H1 H2. assert (hs0 : 0 <= s) by lra. destruct (al_ge s hs0) as (A1 & A2 & A3 & A4). pose proof (Pin_ok s hs0) as Hp. pose proof (DD_pos s t Hp) as D0.
    assert (E1 : 1 + s <= exp s) by apply exp_ineq1_le.
    assert (A5 : Rr * (1 + s) <= al s) by (apply Rle_trans with (Rr * exp s); auto; apply Rmult_le_compat_l; lra).
    assert (NXY : X * X + Y * Y <= kap * kap * (Rr * Rr)) by (pose proof (Rsq_pos X); assert (1 <= kap * kap) by nra; nra).
    assert (A6 : 2 * (kap * Rr) <= al s) by nra. assert (A7 : 4 * (kap * kap * (Rr * Rr)) <= al s * al s) by (assert (0 < kap * Rr) by nra; nra).
    assert (LB : al s * al s / 4 <= DD s t).
    { unfold DD, d1, d2. pose proof (sin2_cos2 t) as SC. unfold Rsqr in SC. set (a := al s) in *. set (b := be s) in *. set (C := cos t) in *. set (S := sin t) in *. clearbody C S a b.
      pose proof (Rsq_pos (a * C - 2 * X)). pose proof (Rsq_pos (b * S - 2 * Y)). assert (a * a <= b * b) by (assert (0 < a) by nra; nra). assert (a * a * (S * S) <= b * b * (S * S)) by (apply Rmult_le_compat_r; auto; apply Rsq_pos).
      assert (a * a = a * a * (C * C) + a * a * (S * S)) by (rewrite <- Rmult_plus_distr_l; replace (C * C + S * S) with 1 by lra; ring). nra. }
    assert (AP : 0 < al s) by nra.
    assert (B : forall d, d * d <= DD s t -> Rabs d * al s <= 2 * DD s t).
    { intros d Hd. apply Rsqr_incr_0_var; [|lra]. unfold Rsqr. replace (Rabs d * al s * (Rabs d * al s)) with ((Rabs d * Rabs d) * (al s * al s)) by ring.
      rewrite <- Rabs_mult, Rabs_pos_eq by apply Rsq_pos. pose proof (Rsq_pos d). assert (al s * al s <= 4 * DD s t) by lra. apply Rle_trans with (DD s t * (4 * DD s t)); [|lra]. apply Rmult_le_compat; auto. nra. }
    assert (B1 := B (d1 s t) ltac:(unfold DD; pose proof (Rsq_pos (d2 s t)); lra)). assert (B2 := B (d2 s t) ltac:(unfold DD; pose proof (Rsq_pos (d1 s t)); lra)).
    apply Rle_trans with (12 / al s).
    - rewrite Rabs_mult, (Rabs_pos_eq (/ DD s t)) by (apply Rlt_le, Rinv_0_lt_compat; auto). apply (Rmult_le_reg_r (al s * DD s t)); [apply Rmult_lt_0_compat; auto|].
      replace (12 / al s * (al s * DD s t)) with (12 * DD s t) by (field; lra). replace (Rabs (n1 * d1 s t + n2 * d2 s t) * / DD s t * (al s * DD s t)) with (Rabs (n1 * d1 s t + n2 * d2 s t) * al s) by (field; lra).
      apply Rle_trans with ((Rabs n1 * Rabs (d1 s t) + Rabs n2 * Rabs (d2 s t)) * al s); [apply Rmult_le_compat_r; [lra|]; rewrite <- 2!Rabs_mult; apply Rabs_triang|].
      pose proof (Rabs_pos n1). pose proof (Rabs_pos n2). assert (0 <= Rabs (d1 s t) * al s) by (apply Rmult_le_pos; [apply Rabs_pos|lra]). assert (0 <= Rabs (d2 s t) * al s) by (apply Rmult_le_pos; [apply Rabs_pos|lra]). nra.
    - unfold Rdiv. rewrite Rmult_assoc, <- Rinv_mult. apply Rmult_le_compat_l; [lra|]. apply Rinv_le_contravar; auto. apply Rmult_lt_0_compat; lra.
  Qed.
  Definition Lim : R := 2 / (Rr * (1 + kap)).
  Lemma num_bounds s t : 0 <= s -> Rabs (cos t * exp s - Lim * d1 s t) <= 3 /\ Rabs (sin t * exp s - Lim * d2 s t) <= 3.
  Proof using hR hk inside.
    intros hs. destruct (al_ge s hs) as (_ & _ & _ & A4). assert (E2 : exp (- s) * exp s = 1) by (rewrite <- exp_plus; replace (- s + s) with 0 by ring; apply exp_0). pose proof (exp_pos (- s)) as E3.
    assert (E4 : exp (- s) <= 1) by nra. unfold d1, d2, al, be, Lim. set (i := exp (- s)) in *. set (k := (kap - 1) / (1 + kap)).
    assert (K0 : 0 <= k <= 1). { unfold k. split; [apply Rmult_le_pos; [lra|apply Rlt_le, Rinv_0_lt_compat; lra]|]. apply (Rmult_le_reg_r (1 + kap)); [lra|]. replace ((kap - 1) / (1 + kap) * (1 + kap)) with (kap - 1) by (field; lra). lra. }
    assert (KI : 0 <= k * i <= 1) by nra.
    pose proof (Rsq_pos X). pose proof (Rsq_pos Y). assert (RR : 0 < Rr * Rr) by nra.
    assert (BX : Rabs (2 / (Rr * (1 + kap)) * X) <= 2).
    { rewrite Rabs_mult, (Rabs_pos_eq (2 / _)) by (apply Rlt_le, Rdiv_lt_0_compat; [lra|apply Rmult_lt_0_compat; lra]). assert (Rabs X <= Rr). { apply Rabs_le. assert (X * X < Rr * Rr) by (apply (Rmult_lt_reg_l (kap * kap)); nra). split; nra. }
      apply (Rmult_le_reg_r (Rr * (1 + kap))); [apply Rmult_lt_0_compat; lra|]. replace (2 / (Rr * (1 + kap)) * Rabs X * (Rr * (1 + kap))) with (2 * Rabs X) by (field; split; lra). nra. }
    assert (BY : Rabs (2 / (Rr * (1 + kap)) * Y) <= 2).
    { rewrite Rabs_mult, (Rabs_pos_eq (2 / _)) by (apply Rlt_le, Rdiv_lt_0_compat; [lra|apply Rmult_lt_0_compat; lra]). assert (Rabs Y <= kap * Rr). { apply Rabs_le. assert (0 <= kap * kap * (X * X)) by (apply Rmult_le_pos; nra). assert (0 < kap * Rr) by nra. split; nra. }
      apply (Rmult_le_reg_r (Rr * (1 + kap))); [apply Rmult_lt_0_compat; lra|]. replace (2 / (Rr * (1 + kap)) * Rabs Y * (Rr * (1 + kap))) with (2 * Rabs Y) by (field; split; lra). nra. }
    pose proof (COS_bound t). pose proof (SIN_bound t). split.
    - replace (cos t * exp s - _) with (k * i * cos t + 2 / (Rr * (1 + kap)) * X) by (unfold k; field; split; lra). eapply Rle_trans; [apply Rabs_triang|]. assert (Rabs (k * i * cos t) <= 1) by (rewrite Rabs_mult, (Rabs_pos_eq (k * i)) by lra; assert (Rabs (cos t) <= 1) by (apply Rabs_le; lra); pose proof (Rabs_pos (cos t)); nra). lra.
    - replace (sin t * exp s - _) with (- (k * i * sin t) + 2 / (Rr * (1 + kap)) * Y) by (unfold k; field; split; lra). eapply Rle_trans; [apply Rabs_triang|]. rewrite Rabs_Ropp. assert (Rabs (k * i * sin t) <= 1) by (rewrite Rabs_mult, (Rabs_pos_eq (k * i)) by lra; assert (Rabs (sin t) <= 1) by (apply Rabs_le; lra); pose proof (Rabs_pos (sin t)); nra). lra.
  Qed.
  Lemma far_val (f : R -> R -> R) L : (forall s t, 0 <= s -> continuous (f s) t) -> (forall s, 0 <= s -> RInt (f 0) 0 (2 * PI) = RInt (f s) 0 (2 * PI)) ->
    (forall s t, 2 * kap <= s -> Rabs (f s t - L) <= 12 / Rr / (1 + s)) -> is_RInt (f 0) 0 (2 * PI) (2 * PI * L).
  Proof using hR hk.
    intros Hc Hi Hb. replace (2 * PI * L) with (RInt (f 0) 0 (2 * PI)); [apply cont_is_RInt; intros; apply Hc; lra|].
    apply (small_eq _ _ (2 * PI * (12 / Rr)) (2 * kap)); [lra|]. intros s hs. rewrite (Hi s) by lra. replace (2 * PI * (12 / Rr) / (1 + s)) with (2 * PI * (12 / Rr / (1 + s))) by (field; split; nra).
    apply RInt_close; intros; [apply Hc; lra|apply Hb; auto].
  Qed.
  Theorem ellipse_re1 : is_RInt (re 1 0) 0 (2 * PI) (2 * PI * Lim).
  Proof using hR hk inside.
    apply (far_val (re 1)); [intros; apply re_c; [ring|apply Pin_ok; auto]|intros; apply re_const; [ring|auto]|]. intros s t hs. assert (hs0 : 0 <= s) by lra. pose proof (DD_pos s t (Pin_ok s hs0)) as D0.
    destruct (num_bounds s t hs0) as [N1 N2]. replace (re 1 s t - Lim) with (((cos t * exp s - Lim * d1 s t) * d1 s t + (sin t * exp s - Lim * d2 s t) * d2 s t) * / DD s t); [apply frac; auto|].
    unfold re. rewrite Rmult_1_l. apply (Rmult_eq_reg_r (DD s t)); [|lra]. field_simplify; [|lra|lra]. unfold DD. ring.
  Qed.
  Theorem ellipse_im1 : is_RInt (im 1 0) 0 (2 * PI) 0.
  Proof using hR hk inside.
    replace 0 with (2 * PI * 0) at 3 by ring. apply (far_val (im 1)); [intros; apply im_c; [ring|apply Pin_ok; auto]|intros; apply im_const; [ring|auto]|]. intros s t hs. assert (hs0 : 0 <= s) by lra. pose proof (DD_pos s t (Pin_ok s hs0)) as D0.
    destruct (num_bounds s t hs0) as [N1 N2]. replace (im 1 s t - 0) with (((sin t * exp s - Lim * d2 s t) * d1 s t + (- (cos t * exp s - Lim * d1 s t)) * d2 s t) * / DD s t); [apply frac; auto; rewrite Rabs_Ropp; auto|].
    unfold im. rewrite Rmult_1_l. field. lra.
  Qed.
  Lemma em_bounds s t : 0 <= s -> Rabs (exp (-1 * s) * cos t) <= 3 /\ Rabs (exp (-1 * s) * sin t) <= 3.
  Proof using hR hk.
    intros hs. destruct (al_ge s hs) as (_ & _ & _ & A4). assert (E2 : exp (-1 * s) * exp s = 1) by (rewrite <- exp_plus; replace (-1 * s + s) with 0 by ring; apply exp_0). pose proof (exp_pos (-1 * s)) as E3.
    assert (E4 : exp (-1 * s) <= 1) by nra. pose proof (COS_bound t). pose proof (SIN_bound t). split; apply Rabs_le; split; nra.
  Qed.
  Theorem ellipse_rem : is_RInt (re (-1) 0) 0 (2 * PI) 0.
  Proof using hR hk inside.
    replace 0 with (2 * PI * 0) at 3 by ring. apply (far_val (re (-1))); [intros; apply re_c; [ring|apply Pin_ok; auto]|intros; apply re_const; [ring|auto]|]. intros s t hs. assert (hs0 : 0 <= s) by lra. pose proof (DD_pos s t (Pin_ok s hs0)) as D0.
    destruct (em_bounds s t hs0) as [N1 N2]. replace (re (-1) s t - 0) with ((exp (-1 * s) * cos t * d1 s t + - (exp (-1 * s) * sin t) * d2 s t) * / DD s t); [apply frac; auto; rewrite Rabs_Ropp; auto|].
    unfold re. ring.
  Qed.
  Theorem ellipse_imm : is_RInt (im (-1) 0) 0 (2 * PI) 0.
  Proof using hR hk inside.
    replace 0 with (2 * PI * 0) at 3 by ring. apply (far_val (im (-1))); [intros; apply im_c; [ring|apply Pin_ok; auto]|intros; apply im_const; [ring|auto]|]. intros s t hs. assert (hs0 : 0 <= s) by lra. pose proof (DD_pos s t (Pin_ok s hs0)) as D0.
    destruct (em_bounds s t hs0) as [N1 N2]. replace (im (-1) s t - 0) with ((- (exp (-1 * s) * sin t) * d1 s t + - (exp (-1 * s) * cos t) * d2 s t) * / DD s t); [apply frac; auto; rewrite Rabs_Ropp; auto|].
    unfold im. ring.
  Qed.
End Ellipse.
