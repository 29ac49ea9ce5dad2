(** * C80: accuracy of ellipticPiCarlson at its own tolerance -- refuted: the residual test can pass by accident *)
From Coquelicot Require Import Coquelicot.
From Coq Require Import ZArith List Bool Arith Lia Reals Ranalysis5 Lra Psatz.
From Verif Require Import Num NumR NumX M_Elliptic L_List L_X L_Carlson Spec SpecBS L_Calc L_Gen L_Dupl L_Ell L_Dupl2 L_Dupl3 L_Dupl4 P_Elliptic.
Import ListNotations.
Local Open Scope R_scope.
Local Notation len := List.length.

(** bounds of the series for X, Y in [x0, x1], X + Y + Z = 0 *)
Lemma pw_le a b : 0 <= a -> a <= b -> a * a <= b * b /\ a * a * a <= b * b * b.
Proof. intros. split; repeat apply Rmult_le_compat; try lra; apply Rmult_le_pos; lra. Qed.
Lemma rfP_bounds X Y x0 x1 : 0 <= x0 -> x0 <= X <= x1 -> x0 <= Y <= x1 ->
  let a := 3 / 2 * (x0 * x0) in let b := 3 / 2 * (x1 * x1) in let c := x0 * x0 * x0 in let d := x1 * x1 * x1 in
  a / 5 - d / 7 + a * a / 6 - 3 / 11 * (b * d) + (5 / 26 * (a * a * a) + 3 / 26 * (c * c)) <= rfP X Y (- (X + Y)) <=
  b / 5 - c / 7 + b * b / 6 - 3 / 11 * (a * c) + (5 / 26 * (b * b * b) + 3 / 26 * (d * d)).
Proof.
  intros h0 hX hY a b c d. unfold rfP.
  set (s1 := (X * X + Y * Y + - (X + Y) * - (X + Y)) / 4). set (s2 := (X * X * X + Y * Y * Y + - (X + Y) * - (X + Y) * - (X + Y)) / 6).
  assert (XX : x0 * x0 <= X * X <= x1 * x1) by (split; apply Rmult_le_compat; lra).
  assert (YY : x0 * x0 <= Y * Y <= x1 * x1) by (split; apply Rmult_le_compat; lra).
  assert (XY : x0 * x0 <= X * Y <= x1 * x1) by (split; apply Rmult_le_compat; lra).
  assert (E1 : s1 = (X * X + Y * Y + X * Y) / 2) by (unfold s1; field).
  set (t := X * Y * (X + Y) / 2). assert (E2 : s2 = - t) by (unfold s2, t; field).
  assert (S1 : a <= s1 <= b) by (rewrite E1; unfold a, b; lra).
  assert (q0 : 0 <= x0 * x0) by (apply Rmult_le_pos; lra).
  assert (XYx : x0 * x0 * (2 * x0) <= X * Y * (X + Y) <= x1 * x1 * (2 * x1)) by (split; apply Rmult_le_compat; lra).
  assert (S2 : c <= t <= d) by (unfold t, c, d; lra).
  assert (a0 : 0 <= a) by (unfold a; lra). assert (c0 : 0 <= c) by (unfold c; apply Rmult_le_pos; lra).
  rewrite E2. clearbody s1 t a b c d.
  destruct (pw_le a s1) as [A1 A2]; try lra. destruct (pw_le s1 b) as [A3 A4]; try lra. destruct (pw_le c t) as [A5 _]; try lra. destruct (pw_le t d) as [A6 _]; try lra.
  assert (M : a * c <= s1 * t <= b * d) by (split; apply Rmult_le_compat; lra).
  replace (3 / 11 * s1 * - t) with (- (3 / 11 * (s1 * t))) by ring. replace (- t * - t) with (t * t) by ring. lra.
Qed.
(** ** the parametrisation: s = sqrt(1-m) = t^2 and sqrt(1+s) = w are rational in q *)
Definition tq (q : R) : R := 2 * q / (1 - q * q).
Definition wq (q : R) : R := (1 + q * q) / (1 - q * q).
Definition sq_ (q : R) : R := tq q * tq q.
Section Param.
  Variable q : R.
  Hypothesis hq : 1 / 100 < q < 1 / 10.
  Let D0 : 0 < 1 - q * q. Proof. nra. Qed.
  Lemma tq_pos : 0 < tq q.
  Proof. unfold tq. apply Rdiv_lt_0_compat; lra. Qed.
  Lemma wq_pos : 0 < wq q.
  Proof. unfold wq. apply Rdiv_lt_0_compat; nra. Qed.
  Lemma wq_sq : wq q * wq q = 1 + sq_ q.
  Proof. unfold wq, sq_, tq. field. lra. Qed.
  Let t := tq q. Let w := wq q. Let s := sq_ q.
  Definition l1 : R := (s * w + t * w + w * w * t) / 4.
  Definition p1 : R * R * R := (s / 4, (s * s + s) / 4, (1 + s) / 4).
  Definition p2 : R * R * R := ((s / 4 + l1) / 4, ((s * s + s) / 4 + l1) / 4, ((1 + s) / 4 + l1) / 4).
  Let ht : 0 < t := tq_pos. Let hw : 0 < w := wq_pos.
  Let hs : 0 < s. Proof. unfold s, sq_. apply Rmult_lt_0_compat; exact tq_pos. Qed.
  Lemma step1 : rf_next (N := RN) (0, s * s, 1) = p1.
  Proof.
    assert (0 <= s * s) by nra. rewrite rf_next_R by lra. unfold lamR. rewrite sqrt_0, sqrt_1, (sqrt_square s) by lra. unfold p1. f_equal; [f_equal|]; field.
  Qed.
  Lemma sqrt_q1 : sqrt (s / 4) = t / 2.
  Proof. replace (s / 4) with (t / 2 * (t / 2)) by (unfold s, sq_, t; field). apply sqrt_square. lra. Qed.
  Lemma sqrt_q2 : sqrt ((s * s + s) / 4) = t * w / 2.
  Proof.
    replace ((s * s + s) / 4) with (t * w / 2 * (t * w / 2)). { apply sqrt_square. assert (0 < t * w) by (apply Rmult_lt_0_compat; lra). lra. }
    replace (t * w / 2 * (t * w / 2)) with (t * t * (w * w) / 4) by field. unfold w. rewrite wq_sq. unfold s, sq_, t. field.
  Qed.
  Lemma sqrt_q3 : sqrt ((1 + s) / 4) = w / 2.
  Proof. replace ((1 + s) / 4) with (w / 2 * (w / 2)). { apply sqrt_square. lra. } unfold w. replace (wq q / 2 * (wq q / 2)) with (wq q * wq q / 4) by field. rewrite wq_sq. reflexivity. Qed.
  Lemma step2 : rf_next (N := RN) p1 = p2.
  Proof.
    unfold p1. assert (0 <= s * s) by nra. rewrite rf_next_R by lra. unfold lamR. rewrite sqrt_q1, sqrt_q2, sqrt_q3. unfold p2.
    assert (E : t / 2 * (t * w / 2) + t / 2 * (w / 2) + t * w / 2 * (w / 2) = l1) by (unfold l1, s, sq_; fold t; field).
    rewrite E. reflexivity.
  Qed.
End Param.
Definition mu3 (x y z : R) : R := (x + y + z) / 3.
Definition ser (x y z : R) : R := 1 + rfP (1 - x / mu3 x y z) (1 - y / mu3 x y z) (1 - z / mu3 x y z).
Definition G (x y z : R) : R := ser x y z * ser x y z / mu3 x y z.
Lemma ser_XY x y z : 0 < x + y + z -> ser x y z = 1 + rfP (1 - x / mu3 x y z) (1 - y / mu3 x y z) (- ((1 - x / mu3 x y z) + (1 - y / mu3 x y z))).
Proof. intros h. unfold ser. f_equal. f_equal. unfold mu3. field. lra. Qed.
Lemma ratio_le x m c : 0 < m -> x <= c * m -> x / m <= c.
Proof. intros hm h. apply (Rmult_le_reg_r m); auto. unfold Rdiv. rewrite Rmult_assoc, Rinv_l by lra. lra. Qed.
Lemma ratio_ge x m c : 0 < m -> c * m <= x -> c <= x / m.
Proof. intros hm h. apply (Rmult_le_reg_r m); auto. unfold Rdiv. rewrite Rmult_assoc, Rinv_l by lra. lra. Qed.
Lemma ser_pos x y z : 0 <= x -> 0 <= y -> 0 < z -> 2 * x <= y + z -> 2 * y <= x + z -> 0 < ser x y z.
Proof.
  intros hx hy hz h1 h2. rewrite ser_XY by lra. set (m := mu3 x y z). assert (hm : 0 < m) by (unfold m, mu3; lra).
  pose proof (ratio_le x m 1 hm ltac:(unfold m, mu3; lra)). pose proof (ratio_le y m 1 hm ltac:(unfold m, mu3; lra)).
  pose proof (ratio_ge x m 0 hm ltac:(lra)). pose proof (ratio_ge y m 0 hm ltac:(lra)).
  pose proof (rfP_bounds (1 - x / m) (1 - y / m) 0 1 ltac:(lra) ltac:(lra) ltac:(lra)) as [L _]. cbv zeta in L. lra.
Qed.
Lemma val_G x y z : 0 < x + y + z -> 0 < ser x y z -> rf_val (N := RN) (x, y, z) = sqrt (G x y z).
Proof.
  intros h hs. rewrite rf_val_R by auto. fold (mu3 x y z). fold (ser x y z). unfold G. assert (0 < mu3 x y z) by (unfold mu3; lra).
  unfold Rdiv. rewrite sqrt_mult_alt by nra. rewrite sqrt_square by lra. rewrite sqrt_inv. apply (Rmult_comm (/ sqrt (mu3 x y z))).
Qed.
Definition gap (q : R) : R := let '(x, y, z) := p2 q in let '(x', y', z') := p1 q in G x y z - G x' y' z'.
Ltac cpt := repeat match goal with
  | |- continuity_pt (fun x => @?f x + @?g x) _ => apply (continuity_pt_plus f g)
  | |- continuity_pt (fun x => @?f x - @?g x) _ => apply (continuity_pt_minus f g)
  | |- continuity_pt (fun x => - @?f x) _ => apply (continuity_pt_opp f)
  | |- continuity_pt (fun x => @?f x * @?g x) _ => apply (continuity_pt_mult f g)
  | |- continuity_pt (fun x => @?f x / @?g x) _ => apply (continuity_pt_div f g)
  | |- continuity_pt (fun x => x) _ => apply continuity_pt_id
  | |- continuity_pt (fun _ => ?c) _ => apply continuity_pt_const; intros ? ?; reflexivity
  end; auto.
Lemma rfP_cont (f g h : R -> R) q : continuity_pt f q -> continuity_pt g q -> continuity_pt h q -> continuity_pt (fun q => rfP (f q) (g q) (h q)) q.
Proof. intros hf hg hh. unfold rfP. cpt; lra. Qed.
Lemma G_cont (f g h : R -> R) q : continuity_pt f q -> continuity_pt g q -> continuity_pt h q -> 0 < f q + g q + h q -> continuity_pt (fun q => G (f q) (g q) (h q)) q.
Proof.
  intros hf hg hh hp. assert (HM : continuity_pt (fun q => mu3 (f q) (g q) (h q)) q) by (unfold mu3; cpt; lra). assert (N0 : mu3 (f q) (g q) (h q) <> 0) by (unfold mu3; lra).
  assert (HS : continuity_pt (fun q => ser (f q) (g q) (h q)) q).
  { unfold ser. apply (continuity_pt_plus (fun _ => 1)); [cpt|]. apply (rfP_cont (fun q => 1 - f q / mu3 (f q) (g q) (h q)) (fun q => 1 - g q / mu3 (f q) (g q) (h q)) (fun q => 1 - h q / mu3 (f q) (g q) (h q))); cpt. }
  unfold G. apply (continuity_pt_div (fun q => ser (f q) (g q) (h q) * ser (f q) (g q) (h q)) (fun q => mu3 (f q) (g q) (h q))); auto.
  apply (continuity_pt_mult (fun q => ser (f q) (g q) (h q)) (fun q => ser (f q) (g q) (h q))); auto.
Qed.
Lemma tq_cont q : 1 / 100 < q < 1 / 10 -> continuity_pt tq q.
Proof. intros hq. unfold tq. cpt. nra. Qed.
Lemma wq_cont q : 1 / 100 < q < 1 / 10 -> continuity_pt wq q.
Proof. intros hq. unfold wq. cpt. nra. Qed.
Lemma sq_pos_ q : 1 / 100 < q < 1 / 10 -> 0 < sq_ q.
Proof. intros hq. unfold sq_. pose proof (tq_pos q hq). nra. Qed.
Lemma l1_pos q : 1 / 100 < q < 1 / 10 -> 0 < l1 q.
Proof.
  intros hq. unfold l1. pose proof (tq_pos q hq). pose proof (wq_pos q hq). pose proof (sq_pos_ q hq).
  assert (0 < sq_ q * wq q) by (apply Rmult_lt_0_compat; auto). assert (0 < tq q * wq q) by (apply Rmult_lt_0_compat; auto).
  assert (0 < wq q * wq q * tq q) by (apply Rmult_lt_0_compat; [apply Rmult_lt_0_compat|]; auto). lra.
Qed.
Lemma gap_cont q : 1 / 100 < q < 1 / 10 -> continuity_pt gap q.
Proof.
  intros hq. pose proof (tq_cont q hq) as ct. pose proof (wq_cont q hq) as cw. pose proof (sq_pos_ q hq) as hs. pose proof (l1_pos q hq) as hl.
  assert (cs : continuity_pt sq_ q) by (unfold sq_; cpt).
  assert (cl : continuity_pt l1 q) by (unfold l1; cpt; lra).
  assert (0 < sq_ q * sq_ q) by (apply Rmult_lt_0_compat; auto).
  change (continuity_pt (fun q => G ((sq_ q / 4 + l1 q) / 4) (((sq_ q * sq_ q + sq_ q) / 4 + l1 q) / 4) (((1 + sq_ q) / 4 + l1 q) / 4)
     - G (sq_ q / 4) ((sq_ q * sq_ q + sq_ q) / 4) ((1 + sq_ q) / 4)) q).
  apply (continuity_pt_minus (fun q => G ((sq_ q / 4 + l1 q) / 4) (((sq_ q * sq_ q + sq_ q) / 4 + l1 q) / 4) (((1 + sq_ q) / 4 + l1 q) / 4))
     (fun q => G (sq_ q / 4) ((sq_ q * sq_ q + sq_ q) / 4) ((1 + sq_ q) / 4))).
  - apply (G_cont (fun q => (sq_ q / 4 + l1 q) / 4) (fun q => ((sq_ q * sq_ q + sq_ q) / 4 + l1 q) / 4) (fun q => ((1 + sq_ q) / 4 + l1 q) / 4)); cpt; lra.
  - apply (G_cont (fun q => sq_ q / 4) (fun q => (sq_ q * sq_ q + sq_ q) / 4) (fun q => (1 + sq_ q) / 4)); cpt; lra.
Qed.
Lemma gap_lo : 0 < gap (5 / 99).
Proof.
  assert (et : tq (5 / 99) = (495 / 4888)) by (unfold tq; lra).
  assert (ew : wq (5 / 99) = (4913 / 4888)) by (unfold wq; lra).
  assert (es : sq_ (5 / 99) = (245025 / 23892544)) by (unfold sq_; rewrite et; lra).
  assert (el : l1 (5 / 99) = (240761565 / 4491798272)) by (unfold l1; rewrite es, et, ew; lra).
  unfold gap, p2, p1. rewrite es, el.
  replace (((245025 / 23892544) / 4 + (240761565 / 4491798272)) / 4) with (4851495 / 345522944) by lra. replace ((245025 / 23892544) / 4) with (245025 / 95570176) by lra.
  replace ((((245025 / 23892544) * (245025 / 23892544) + (245025 / 23892544)) / 4 + (240761565 / 4491798272)) / 4) with (128305930935105 / 9133658540670976) by lra. replace (((245025 / 23892544) * (245025 / 23892544) + (245025 / 23892544)) / 4) with (5914307844225 / 2283414635167744) by lra.
  replace (((1 + (245025 / 23892544)) / 4 + (240761565 / 4491798272)) / 4) with (26446679 / 345522944) by lra. replace ((1 + (245025 / 23892544)) / 4) with (24137569 / 95570176) by lra.
  assert (am : mu3 (245025 / 95570176) (5914307844225 / 2283414635167744) (24137569 / 95570176) = (588476507823361 / 6850243905503232)) by (unfold mu3; lra).
  assert (aP : ser (245025 / 95570176) (5914307844225 / 2283414635167744) (24137569 / 95570176) = (5884456671001395680125370887928445094468715875116071600588271549391512655418762679232205540589 / 3325820811067984279153445185612070406869170947406262707600924318088170880126847026585725212880)).
  { unfold ser. rewrite am.
    replace (1 - (245025 / 95570176) / (588476507823361 / 6850243905503232)) with (570913696042561 / 588476507823361) by lra.
    replace (1 - (5914307844225 / 2283414635167744) / (588476507823361 / 6850243905503232)) with (570733584290686 / 588476507823361) by lra.
    replace (1 - (24137569 / 95570176) / (588476507823361 / 6850243905503232)) with (- (1141647280333247 / 588476507823361)) by lra.
    unfold rfP.
    replace (((570913696042561 / 588476507823361) * (570913696042561 / 588476507823361) + (570733584290686 / 588476507823361) * (570733584290686 / 588476507823361) + (- (1141647280333247 / 588476507823361)) * (- (1141647280333247 / 588476507823361))) / 4) with (977518892629285387630921676163 / 692609200519956520475954672642) by lra.
    replace (((570913696042561 / 588476507823361) * (570913696042561 / 588476507823361) * (570913696042561 / 588476507823361) + (570733584290686 / 588476507823361) * (570733584290686 / 588476507823361) * (570733584290686 / 588476507823361) + (- (1141647280333247 / 588476507823361)) * (- (1141647280333247 / 588476507823361)) * (- (1141647280333247 / 588476507823361))) / 6) with (- (185996958034879261434446659612818560407884481 / 203792121804157000455437851951147568357594881)) by lra. lra. }
  assert (bm : mu3 (4851495 / 345522944) (128305930935105 / 9133658540670976) (26446679 / 345522944) = (955651377096001 / 27400975622012928)) by (unfold mu3; lra).
  assert (bP : ser (4851495 / 345522944) (128305930935105 / 9133658540670976) (26446679 / 345522944) = (68802842684539144466973036302851114674286594088361097737230402230632780765289706656104910094829 / 60998759659689587679450557289003009038692191855426229027347855326145499181919409282326286160080)).
  { unfold ser. rewrite bm.
    replace (1 - (4851495 / 345522944) / (955651377096001 / 27400975622012928)) with (570913696042561 / 955651377096001) by lra.
    replace (1 - (128305930935105 / 9133658540670976) / (955651377096001 / 27400975622012928)) with (570733584290686 / 955651377096001) by lra.
    replace (1 - (26446679 / 345522944) / (955651377096001 / 27400975622012928)) with (- (1141647280333247 / 955651377096001)) by lra.
    unfold rfP.
    replace (((570913696042561 / 955651377096001) * (570913696042561 / 955651377096001) + (570733584290686 / 955651377096001) * (570733584290686 / 955651377096001) + (- (1141647280333247 / 955651377096001)) * (- (1141647280333247 / 955651377096001))) / 4) with (977518892629285387630921676163 / 1826539109090966209391940384002) by lra.
    replace (((570913696042561 / 955651377096001) * (570913696042561 / 955651377096001) * (570913696042561 / 955651377096001) + (570733584290686 / 955651377096001) * (570733584290686 / 955651377096001) * (570733584290686 / 955651377096001) + (- (1141647280333247 / 955651377096001)) * (- (1141647280333247 / 955651377096001)) * (- (1141647280333247 / 955651377096001))) / 6) with (- (185996958034879261434446659612818560407884481 / 872767307461242328638860003870627869779288001)) by lra. lra. }
  unfold G. rewrite am, aP, bm, bP. lra.
Qed.
Lemma gap_hi : gap (4 / 79) < 0.
Proof.
  assert (et : tq (4 / 79) = (632 / 6225)) by (unfold tq; lra).
  assert (ew : wq (4 / 79) = (6257 / 6225)) by (unfold wq; lra).
  assert (es : sq_ (4 / 79) = (399424 / 38750625)) by (unfold sq_; rewrite et; lra).
  assert (el : l1 (4 / 79) = (156199748 / 2906296875)) by (unfold l1; rewrite es, et, ew; lra).
  unfold gap, p2, p1. rewrite es, el.
  replace (((399424 / 38750625) / 4 + (156199748 / 2906296875)) / 4) with (493039 / 35015625) by lra. replace ((399424 / 38750625) / 4) with (99856 / 38750625) by lra.
  replace ((((399424 / 38750625) * (399424 / 38750625) + (399424 / 38750625)) / 4 + (156199748 / 2906296875)) / 4) with (21153468022711 / 1501610937890625) by lra. replace (((399424 / 38750625) * (399424 / 38750625) + (399424 / 38750625)) / 4) with (3909367292944 / 1501610937890625) by lra.
  replace (((1 + (399424 / 38750625)) / 4 + (156199748 / 2906296875)) / 4) with (42904249 / 560250000) by lra. replace ((1 + (399424 / 38750625)) / 4) with (39150049 / 155002500) by lra.
  assert (am : mu3 (99856 / 38750625) (3909367292944 / 1501610937890625) (39150049 / 155002500) = (1548204266342401 / 18019331254687500)) by (unfold mu3; lra).
  assert (aP : ser (99856 / 38750625) (3909367292944 / 1501610937890625) (39150049 / 155002500) = (1950593254732230654093040197252979323462155993247039751023411676847928691104903988441864823296749 / 1102792042929775115161232037388557391440075184247054932138418143463709076231610960517207908432080)).
  { unfold ser. rewrite am.
    replace (1 - (99856 / 38750625) / (1548204266342401 / 18019331254687500)) with (1501770477422401 / 1548204266342401) by lra.
    replace (1 - (3909367292944 / 1501610937890625) / (1548204266342401 / 18019331254687500)) with (1501291858827073 / 1548204266342401) by lra.
    replace (1 - (39150049 / 155002500) / (1548204266342401 / 18019331254687500)) with (- (3003062336249474 / 1548204266342401)) by lra.
    unfold rfP.
    replace (((1501770477422401 / 1548204266342401) * (1501770477422401 / 1548204266342401) + (1501291858827073 / 1548204266342401) * (1501291858827073 / 1548204266342401) + (- (3003062336249474 / 1548204266342401)) * (- (3003062336249474 / 1548204266342401))) / 4) with (6763787603819051580300529814403 / 4793872900641624267765140889602) by lra.
    replace (((1501770477422401 / 1548204266342401) * (1501770477422401 / 1548204266342401) * (1501770477422401 / 1548204266342401) + (1501291858827073 / 1548204266342401) * (1501291858827073 / 1548204266342401) * (1501291858827073 / 1548204266342401) + (- (3003062336249474 / 1548204266342401)) * (- (3003062336249474 / 1548204266342401)) * (- (3003062336249474 / 1548204266342401))) / 6) with (- (3385345852581881054063548634046872603721547201 / 3710947238538291851787855101139951723936307201)) by lra. lra. }
  assert (bm : mu3 (493039 / 35015625) (21153468022711 / 1501610937890625) (42904249 / 560250000) = (2516658323917201 / 72077325018750000)) by (unfold mu3; lra).
  assert (bP : ser (493039 / 35015625) (21153468022711 / 1501610937890625) (42904249 / 560250000) = (22940101436240549769947265711187554721065170084293833790450878242717444611134252111895084909845549 / 20345558113656801617497422645765275460447368612159601374803372464598647142863379424224867544336080)).
  { unfold ser. rewrite bm.
    replace (1 - (493039 / 35015625) / (2516658323917201 / 72077325018750000)) with (1501770477422401 / 2516658323917201) by lra.
    replace (1 - (21153468022711 / 1501610937890625) / (2516658323917201 / 72077325018750000)) with (1501291858827073 / 2516658323917201) by lra.
    replace (1 - (42904249 / 560250000) / (2516658323917201 / 72077325018750000)) with (- (3003062336249474 / 2516658323917201)) by lra.
    unfold rfP.
    replace (((1501770477422401 / 2516658323917201) * (1501770477422401 / 2516658323917201) + (1501291858827073 / 2516658323917201) * (1501291858827073 / 2516658323917201) + (- (3003062336249474 / 2516658323917201)) * (- (3003062336249474 / 2516658323917201))) / 4) with (6763787603819051580300529814403 / 12667138238683470781738207348802) by lra.
    replace (((1501770477422401 / 2516658323917201) * (1501770477422401 / 2516658323917201) * (1501770477422401 / 2516658323917201) + (1501291858827073 / 2516658323917201) * (1501291858827073 / 2516658323917201) * (1501291858827073 / 2516658323917201) + (- (3003062336249474 / 2516658323917201)) * (- (3003062336249474 / 2516658323917201)) * (- (3003062336249474 / 2516658323917201))) / 6) with (- (3385345852581881054063548634046872603721547201 / 15939429444296314582523747007971691448787271601)) by lra. lra. }
  unfold G. rewrite am, aP, bm, bP. lra.
Qed.
(** ** bounds for 5/99 <= q <= 4/79 *)
Section Bounds.
  Variable q : R.
  Hypothesis hq : 5 / 99 <= q <= 4 / 79.
  Let hq' : 1 / 100 < q < 1 / 10. Proof. lra. Qed.
  Let qq : 25 / 9801 <= q * q <= 16 / 6241. Proof. nra. Qed.
  Lemma t_b : 0.10126 <= tq q <= 0.10153.
  Proof. unfold tq. split; [apply ratio_ge|apply ratio_le]; lra. Qed.
  Lemma w_b : 1.0051 <= wq q <= 1.0052.
  Proof. unfold wq. split; [apply ratio_ge|apply ratio_le]; lra. Qed.
  Lemma s_b : 0.010253 <= sq_ q <= 0.010309.
  Proof. unfold sq_. pose proof t_b. nra. Qed.
  Lemma ss_b : 0.000105 <= sq_ q * sq_ q <= 0.000107.
  Proof. pose proof s_b. nra. Qed.
  Lemma l1_b : 0.05359 <= l1 q.
  Proof.
    unfold l1. pose proof t_b. pose proof w_b. pose proof s_b.
    assert (0.010253 * 1.0051 <= sq_ q * wq q) by (apply Rmult_le_compat; lra). assert (0.10126 * 1.0051 <= tq q * wq q) by (apply Rmult_le_compat; lra).
    assert (1.0051 * 1.0051 <= wq q * wq q) by (apply Rmult_le_compat; lra). assert (1.0051 * 1.0051 * 0.10126 <= wq q * wq q * tq q) by (apply Rmult_le_compat; lra). lra.
  Qed.
  (** the value of the second iteration *)
  Lemma V_lower : 6.02 < rf_val (N := RN) (p1 q).
  Proof.
    unfold p1. pose proof s_b. pose proof ss_b. set (s := sq_ q) in *. rewrite rf_val_R by lra.
    fold (mu3 (s / 4) ((s * s + s) / 4) ((1 + s) / 4)). fold (ser (s / 4) ((s * s + s) / 4) ((1 + s) / 4)).
    assert (hm : 0 < mu3 (s / 4) ((s * s + s) / 4) ((1 + s) / 4) <= 0.08593) by (unfold mu3; lra).
    assert (P : 1.7665 <= ser (s / 4) ((s * s + s) / 4) ((1 + s) / 4)).
    { rewrite ser_XY by lra. set (m := mu3 (s / 4) ((s * s + s) / 4) ((1 + s) / 4)) in *.
      assert (X1 : 0.0298 <= s / 4 / m <= 0.0304) by (split; [apply ratio_ge|apply ratio_le]; unfold m, mu3 in *; lra).
      assert (Y1 : 0.0298 <= (s * s + s) / 4 / m <= 0.0304) by (split; [apply ratio_ge|apply ratio_le]; unfold m, mu3 in *; lra).
      pose proof (rfP_bounds (1 - s / 4 / m) (1 - (s * s + s) / 4 / m) 0.9696 0.9702 ltac:(lra) ltac:(lra) ltac:(lra)) as [L _]. cbv zeta in L. lra. }
    assert (I : 3.4113 <= / sqrt (mu3 (s / 4) ((s * s + s) / 4) ((1 + s) / 4))).
    { rewrite <- (Rinv_inv 3.4113). apply Rinv_le_contravar; [apply sqrt_lt_R0; lra|]. apply Rsqr_incr_0_var; [|lra]. unfold Rsqr. rewrite sqrt_sqrt by lra. lra. }
    apply (Rlt_le_trans _ (3.4113 * 1.7665)); [lra|]. apply (Rmult_le_compat 3.4113 _ 1.7665); lra.
  Qed.
  (** the value of the first iteration *)
  Lemma V0_bounds : 1 < rf_val (N := RN) (0, sq_ q * sq_ q, 1) < 4.
  Proof.
    pose proof ss_b. set (y := sq_ q * sq_ q) in *. rewrite rf_val_R by lra. fold (mu3 0 y 1). fold (ser 0 y 1). assert (hm : 1 / 3 <= mu3 0 y 1 <= 0.34) by (unfold mu3; lra).
    assert (P : 1.8 <= ser 0 y 1 <= 1.9).
    { rewrite ser_XY by lra. set (m := mu3 0 y 1) in *.
      assert (X1 : 0 <= 0 / m <= 0) by (split; [apply ratio_ge|apply ratio_le]; lra).
      assert (Y1 : 0 <= y / m <= 0.0004) by (split; [apply ratio_ge|apply ratio_le]; lra).
      pose proof (rfP_bounds (1 - 0 / m) (1 - y / m) 0.9996 1 ltac:(lra) ltac:(lra) ltac:(lra)) as L. cbv zeta in L. lra. }
    assert (S : 0.5 <= sqrt (mu3 0 y 1) <= 1).
    { split; apply Rsqr_incr_0_var; unfold Rsqr; rewrite ?sqrt_sqrt by lra; try lra. apply sqrt_pos. }
    assert (I : 1 <= / sqrt (mu3 0 y 1) <= 2).
    { split; [rewrite <- Rinv_1 at 1|rewrite <- (Rinv_inv 2)]; apply Rinv_le_contravar; lra. }
    assert (I2 : 1 * 1.8 <= / sqrt (mu3 0 y 1) * ser 0 y 1 <= 2 * 1.9) by (split; apply Rmult_le_compat; lra). change (1 < / sqrt (mu3 0 y 1) * ser 0 y 1 < 4). lra.
  Qed.
  (** the integral itself *)
  Lemma K_upper : Kell (1 - sq_ q * sq_ q) < 6.005.
  Proof.
    pose proof s_b. pose proof ss_b. pose proof l1_b. pose proof (Kell_RF (1 - sq_ q * sq_ q) ltac:(lra)) as HK.
    replace (1 - (1 - sq_ q * sq_ q)) with (sq_ q * sq_ q) in HK by ring. set (k := Kell (1 - sq_ q * sq_ q)) in *. clearbody k.
    pose proof (proj1 (rf_next_RF (0, sq_ q * sq_ q, 1) k ltac:(lra)) HK) as H1k. rewrite step1 in H1k by exact hq'.
    assert (H2k : RF_of (p2 q) k). { rewrite <- step2 by exact hq'. apply (rf_next_RF (p1 q)); [|exact H1k]. unfold p1. lra. }
    assert (PP : exists x y z, p2 q = (x, y, z) /\ 0.01403 <= x /\ 0.01403 <= y /\ 0.07653 <= z).
    { unfold p2. do 3 eexists. split; [reflexivity|]. lra. }
    destruct PP as (x & y & z & E & hx & hy & hz). rewrite E in H2k.
    pose proof (proj1 (rf_next_RF (x, y, z) k ltac:(lra)) H2k) as H3k. rewrite rf_next_R in H3k by lra.
    assert (SX : forall v c, 0 <= c -> c * c <= v -> c <= sqrt v). { intros v c hc hv. apply Rsqr_incr_0_var; [|apply sqrt_pos]. unfold Rsqr. rewrite sqrt_sqrt; nra. }
    assert (sx : 0.11844 <= sqrt x) by (apply SX; lra). assert (sy : 0.11844 <= sqrt y) by (apply SX; lra). assert (sz : 0.27663 <= sqrt z) by (apply SX; lra).
    assert (L : 0.07955 <= lamR x y z).
    { unfold lamR. assert (0.11844 * 0.11844 <= sqrt x * sqrt y) by (apply Rmult_le_compat; lra). assert (0.11844 * 0.27663 <= sqrt x * sqrt z) by (apply Rmult_le_compat; lra).
      assert (0.11844 * 0.27663 <= sqrt y * sqrt z) by (apply Rmult_le_compat; lra). lra. }
    cbn [RF_of] in H3k. set (x3 := (x + lamR x y z) / 4) in *. set (y3 := (y + lamR x y z) / 4) in *. set (z3 := (z + lamR x y z) / 4) in *.
    assert (h1 : 0.023395 <= x3) by (unfold x3; lra). assert (h2 : 0.023395 <= y3) by (unfold y3; lra). assert (h3 : 0.03902 <= z3) by (unfold z3; lra). clearbody x3 y3 z3.
    assert (0.023395 * 0.023395 <= x3 * y3) by (apply Rmult_le_compat; lra). assert (0.023395 * 0.03902 <= x3 * z3) by (apply Rmult_le_compat; lra).
    assert (0.023395 * 0.03902 <= y3 * z3) by (apply Rmult_le_compat; lra). assert (0.023395 * 0.023395 * 0.03902 <= x3 * y3 * z3) by (apply Rmult_le_compat; lra).
    pose proof (RF_upper x3 y3 z3 ltac:(lra) ltac:(lra) ltac:(lra) k 0.02774 ltac:(lra) ltac:(lra) ltac:(lra) ltac:(lra) H3k) as U.
    eapply Rle_lt_trans; [exact U|]. rewrite <- (Rinv_inv 6.005). apply Rinv_lt_contravar.
    - apply Rmult_lt_0_compat; [lra|apply sqrt_lt_R0; lra].
    - apply Rsqr_incrst_0; [|lra|apply sqrt_pos]. unfold Rsqr. rewrite sqrt_sqrt by lra. lra.
  Qed.
End Bounds.
Lemma rf_loop1 (tol : R) k (res : R) (p : R * R * R) (o : R) : tol < res ->
  rf_loop (N := RN) tol (S k) res [p] [o] = rf_loop (N := RN) tol k (Rabs ((rf_val (N := RN) p : R) - o)) [(rf_next (N := RN) p : R * R * R)] [(rf_val (N := RN) p : R)].
Proof. intros h. cbn [rf_loop]. change (nlt RN tol res) with (Rltb tol res). rewrite (proj2 (Rltb_true tol res) h). reflexivity. Qed.
Lemma rf_loop_stop (tol : R) k (res : R) st (o : list R) : res <= tol -> rf_loop (N := RN) tol (S k) res st o = o.
Proof. intros h. cbn [rf_loop]. change (nlt RN tol res) with (Rltb tol res). rewrite (proj2 (Rltb_false tol res) h). reflexivity. Qed.
Lemma Pi_single_n0 (m : R) : m <= 1 -> exists v, ellipticRF (N := XN) [Fin (1 - m)] = [Fin v] /\ ellipticPiCarlson (N := XN) [(Fin 0, Fin m)] = [Fin v].
Proof.
  intros hm. pose proof (RF_lift RESr ITMAX [1 - m] ltac:(congruence) ltac:(constructor; [lra|constructor])) as E. cbn [map] in E. rewrite <- RES_fin in E.
  pose proof (RF_tol_length (N := RN) RESr ITMAX [1 - m]) as L.
  pose proof (RJ_lift RESr ITMAX [(1 - m, 1 - 0)] ltac:(constructor; [cbn; lra|constructor])) as EJ. rewrite <- RES_fin in EJ.
  pose proof (RJsel_len RESr ITMAX [(1 - m, 1 - 0)]) as LJ. revert L E LJ EJ.
  generalize (RF_tol (N := RN) RESr ITMAX [1 - m]). generalize (RJsel RESr ITMAX [(1 - m, 1 - 0)]). tt. intros lj lf L E LJ EJ.
  destruct lf as [|v [|? ?]]; try discriminate. exists v. split; [exact E|].
  cbn [map fst snd F2 filter List.length] in LJ, EJ. rewrite (proj2 (Rltb_true 0 (1 - 0)) ltac:(lra)) in LJ, EJ. destruct lj as [|j [|? ?]]; try discriminate. cbn [map scatter] in EJ.
  unfold ellipticPiCarlson, Pi_tol. cbn [map fst snd]. change (nsub XN (nZ XN 1) (Fin m)) with (Fin (1 - m)). change (nsub XN (nZ XN 1) (Fin 0)) with (Fin (1 - 0)).
  change (T XN) with X in *. unfold F2 in EJ. cbn [fst snd] in EJ. rewrite E, EJ. cbn [map map2 fst snd]. xn. f_equal. f_equal. field.
Qed.
(** C80: at some 0.999 < m < 1 two successive values of the first loop coincide although neither is the integral: the residual test
    stops the loop and the returned PI(0, m) is wrong in the third digit *)
Theorem C80_accuracy_refuted : exists m v, 0.999 < m < 1 /\ ellipticPiCarlson (N := XN) [(Fin 0, Fin m)] = [Fin v] /\ Piell 0 m + 0.01 < v.
Proof.
  destruct (Ranalysis5.IVT_interv (fun q => - gap q) (5 / 99) (4 / 79)) as (q & hq & Hz).
  { intros a ha. apply continuity_pt_opp, gap_cont. lra. } { lra. } { pose proof gap_lo. lra. } { pose proof gap_hi. lra. }
  assert (hq' : 1 / 100 < q < 1 / 10) by lra.
  pose proof (ss_b q hq) as SS. pose proof (s_b q hq) as SB. pose proof (V_lower q hq) as VL. pose proof (V0_bounds q hq) as V0. pose proof (K_upper q hq) as KU. pose proof (l1_b q hq) as LB.
  assert (EV : rf_val (N := RN) (p2 q) = rf_val (N := RN) (p1 q)).
  { unfold gap in Hz. unfold p2, p1 in *. set (s := sq_ q) in *. set (l := l1 q) in *. rewrite !val_G; try lra; try (apply ser_pos; lra). f_equal. lra. }
  exists (1 - sq_ q * sq_ q). destruct (Pi_single_n0 (1 - sq_ q * sq_ q) ltac:(lra)) as (v & E1 & E2). exists v. split; [lra|]. split; [exact E2|].
  replace (1 - (1 - sq_ q * sq_ q)) with (sq_ q * sq_ q) in E1 by ring. set (y := sq_ q * sq_ q) in *.
  pose proof (RF_lift RESr ITMAX [y] ltac:(congruence) ltac:(constructor; [lra|constructor])) as E. cbn [map] in E. unfold ellipticRF in E1. rewrite RES_fin in E1. rewrite E in E1.
  assert (ER : RF_tol (N := RN) RESr ITMAX [y] = [rf_val (N := RN) (p2 q)]).
  { assert (rs : RESr < 1) by (unfold RESr; lra). change (T RN) with R in *.
    pose proof (step1 q hq') as ST1. fold y in ST1.
    transitivity (rf_loop (N := RN) RESr 20 (1 : R) [((0, y, 1) : R * R * R)] [(0 : R)]); [reflexivity|].
    rewrite rf_loop1 by exact rs. rewrite ST1. rewrite rf_loop1 by (rewrite Rabs_pos_eq; lra). rewrite (step2 q hq').
    rewrite rf_loop1 by (rewrite Rabs_pos_eq; lra). apply rf_loop_stop. rewrite EV, Rminus_diag_eq, Rabs_R0 by reflexivity. unfold RESr. lra. }
  rewrite ER in E1. cbn [map] in E1. assert (E3 : v = rf_val (N := RN) (p1 q)) by congruence.
  assert (PK : Piell 0 (1 - y) = Kell (1 - y)).
  { unfold Piell, Kell. apply RInt_ext. intros t _. f_equal. ring. }
  rewrite PK. change (T RN) with R in *. rewrite E3. lra.
Qed.
