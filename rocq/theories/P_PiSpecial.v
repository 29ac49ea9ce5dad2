(** * C125: special values of the third-kind routine *)
From Coquelicot Require Import Coquelicot.
From Coq Require Import ZArith List Bool Arith Lia String Reals Lra Psatz.
From Verif Require Import Num NumR NumX M_Elliptic L_List L_X L_Built Spec SpecBS L_Calc L_Ell L_Carlson P_Elliptic.
Import ListNotations.
Local Open Scope R_scope.
Local Notation len := List.length.

Lemma Piell_0 m : m < 1 -> Piell 0 m = Kell m.
Proof. intros hm. unfold Piell, Kell. apply (@RInt_ext R_CompleteNormedModule). intros t _. f_equal. ring. Qed.
Lemma Piell_diag m : m < 1 -> Piell m m = Eell m / (1 - m).
Proof.
  intros hm. unfold Piell. apply RInt_val. eapply is_RInt_ext; [|apply D3_int; exact hm]. intros t _. unfold D3. reflexivity.
Qed.
Lemma Piell_n0 n : n < 1 -> Piell n 0 = PI / (2 * sqrt (1 - n)).
Proof.
  intros hn. set (k := sqrt (1 - n)). assert (K : 0 < k) by (apply sqrt_lt_R0; lra). assert (KK : k * k = 1 - n) by (apply sqrt_sqrt; lra). pose proof PI_RGT_0.
  unfold Piell. apply RInt_val.
  assert (P1 : forall t, 0 < cos t * cos t + k * (sin t * sin t)).
  { intros t. pose proof (sin2_cos2 t) as SC. unfold Rsqr in SC. pose proof (Rsq_pos (cos t)). pose proof (Rsq_pos (sin t)). destruct (Req_dec (sin t) 0) as [E|E]; [rewrite E in *; lra|]. pose proof (Rsq_lt _ E). assert (0 < k * (sin t * sin t)) by (apply Rmult_lt_0_compat; auto). lra. }
  assert (P2 : forall t, 0 < 1 - n * (sin t * sin t)) by (intros; apply dm_pos; auto).
  pose (F := fun t => (t + atan ((k - 1) * (sin t * cos t) / (cos t * cos t + k * (sin t * sin t)))) / k).
  replace (PI / (2 * k)) with (minus (F (PI / 2)) (F 0)).
  - apply (is_RInt_ext (fun t => / (1 - n * (sin t * sin t)))); [intros t _; rewrite Rmult_0_l, Rminus_0_r, sqrt_1, Rmult_1_r; reflexivity|].
    apply (is_RInt_derive F).
    + intros t _. unfold F. specialize (P1 t). specialize (P2 t). pose proof (sin2_cos2 t) as SC. unfold Rsqr in SC. auto_derive; [lra|]. set (s := sin t) in *. set (c := cos t) in *. clearbody s c. unfold Rsqr.
      assert (NE : n = 1 - k * k) by lra.
      assert (D : 1 - n * (s * s) = c * c + k * k * (s * s)) by (rewrite NE; lra). rewrite D in *.
      set (A := c * c + k * (s * s)) in *. set (B := c * c + k * k * (s * s)) in *.
      assert (AB : A * A + (k - 1) * (s * c) * ((k - 1) * (s * c)) = B) by (unfold A, B; transitivity ((c * c + k * k * (s * s)) * (s * s + c * c)); [ring|rewrite SC; ring]).
      replace (1 + (k - 1) * (s * c) * / A * ((k - 1) * (s * c) * / A * 1)) with (B / (A * A)) by (rewrite <- AB; field; lra).
      set (Nu := (k - 1) * ((c * c - s * s) * A - 2 * (k - 1) * (s * s * (c * c)))).
      assert (BN : B + Nu = k). { transitivity (B * (s * s + c * c) + Nu); [rewrite SC; ring|]. transitivity (k * ((s * s + c * c) * (s * s + c * c))); [unfold Nu, A, B; ring|rewrite SC; ring]. }
      transitivity ((B + Nu) / (B * k)); [unfold Nu; field; repeat split; lra|]. rewrite BN. field. split; lra.
    + intros t _. apply (@ex_derive_continuous R_AbsRing R_NormedModule). auto_derive. specialize (P2 t). lra.
  - unfold F, minus, plus, opp. cbn. rewrite sin_0, cos_0, cos_PI2, sin_PI2. replace ((k - 1) * (1 * 0) / (0 * 0 + k * (1 * 1))) with 0 by (field; lra). replace ((k - 1) * (0 * 1) / (1 * 1 + k * (0 * 0))) with 0 by (field; lra). rewrite atan_0. field. lra.
Qed.
(** C125: at the pairs (0,m), (m,m) and (n,0), wherever they are in the arrays, the answer tends to K(m), E(m)/(1-m) and
    pi/(2 sqrt(1-n)), with an error divided by four by every further iteration *)
Theorem C125_special_values : forall n m, n < 1 -> m < 1 -> exists B, forall (tol : R) (N : nat) (l : list (R * R)) (i : nat),
  tol < 0 -> (2 <= N)%nat -> Forall (fun p => snd p <= 1) l ->
  let out := Pi_tol (N := XN) (Fin tol) N (map F2 l) in
  (nth_error l i = Some (0, m) -> exists v, nth_error out i = Some (Fin v) /\ Rabs (v - Kell m) <= B / 4 ^ N) /\
  (nth_error l i = Some (m, m) -> exists v, nth_error out i = Some (Fin v) /\ Rabs (v - Eell m / (1 - m)) <= B / 4 ^ N) /\
  (nth_error l i = Some (n, 0) -> exists v, nth_error out i = Some (Fin v) /\ Rabs (v - PI / (2 * sqrt (1 - n))) <= B / 4 ^ N).
Proof.
  intros n m hn hm. destruct (C43_converges 0 m ltac:(lra) hm) as [B1 H1]. destruct (C43_converges m m hm hm) as [B2 H2]. destruct (C43_converges n 0 hn ltac:(lra)) as [B3 H3].
  exists (Rmax B1 (Rmax B2 B3)). intros tol N l i ht hN HL out. assert (P4 : 0 < / 4 ^ N) by (apply Rinv_0_lt_compat, pow_lt; lra).
  assert (K : forall x b, x <= b / 4 ^ N -> b <= Rmax B1 (Rmax B2 B3) -> x <= Rmax B1 (Rmax B2 B3) / 4 ^ N) by (intros x b Hx Hb; eapply Rle_trans; [exact Hx|]; unfold Rdiv; apply Rmult_le_compat_r; lra).
  assert (M1 : B1 <= Rmax B1 (Rmax B2 B3)) by apply Rmax_l. assert (M2 : B2 <= Rmax B1 (Rmax B2 B3)) by (eapply Rle_trans; [apply Rmax_l|apply Rmax_r]). assert (M3 : B3 <= Rmax B1 (Rmax B2 B3)) by (eapply Rle_trans; [apply Rmax_r|apply Rmax_r]).
  split; [|split]; intros Hi.
  - destruct (H1 tol N l i ht hN HL Hi) as (v & E & Q). rewrite Piell_0 in Q by auto. exists v. split; [exact E|]. eapply K; eauto.
  - destruct (H2 tol N l i ht hN HL Hi) as (v & E & Q). rewrite Piell_diag in Q by auto. exists v. split; [exact E|]. eapply K; eauto.
  - destruct (H3 tol N l i ht hN HL Hi) as (v & E & Q). rewrite Piell_n0 in Q by auto. exists v. split; [exact E|]. eapply K; eauto.
Qed.
Example C125_case : Forall (fun p : R * R => snd p <= 1) [(0, 1/2); (1/2, 1/2); (-3, 0)] /\ PI / (2 * sqrt (1 - -3)) = PI / 4.
Proof. split; [repeat constructor; cbn; lra|]. replace (1 - -3) with (2 * 2) by ring. rewrite sqrt_square by lra. field. Qed.
