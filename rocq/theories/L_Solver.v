(** * Facts about the model of Solver.py *)
From Coquelicot Require Import Coquelicot.
From Coq Require Import ZArith List Bool Arith Lia String Reals Lra Psatz.
From Verif Require Import Num NumR NumX L_List L_X M_Solver.
Import ListNotations.
Local Open Scope R_scope.
Local Notation len := List.length.

(** ** The (Spera corrected) momentum induction *)
Definition CtC : R := 8976/10000.
Definition spR (c : R) : R := (c - 4624/10000) / (128/100).
Definition moR (c : R) : R := (1 - sqrt (1 - c)) / 2.
Definition indR (c : R) : R := if Rlt_dec CtC c then spR c else moR c.

Lemma Ct_c_X : Ct_c (N := XN) = Fin CtC.
Proof. unfold Ct_c, ac. xn. f_equal. unfold CtC. lra. Qed.
Lemma spera_X c : spera (N := XN) (Fin c) = Fin (spR c).
Proof. unfold spera, ac. xn. rewrite xdiv_fin by lra. f_equal. unfold spR. field. Qed.
Lemma mom_X c : c <= 1 -> mom (N := XN) (Fin c) = Fin (moR c).
Proof. intros H. unfold mom. xn. rewrite xsqrt_fin by lra. xn. f_equal. unfold moR. field. Qed.
Lemma mom_NaN c : 1 < c -> mom (N := XN) (Fin c) = NaN.
Proof. intros H. unfold mom. xn. unfold xsqrt. rewrite (proj2 (Rltb_true _ _)) by lra. reflexivity. Qed.

Lemma moR_quadratic c : c <= 1 -> 4 * moR c * (1 - moR c) = c /\ moR c <= 1/2.
Proof.
  intros H. unfold moR. pose proof (sqrt_sqrt (1 - c) ltac:(lra)). pose proof (sqrt_pos (1 - c)).
  split; nra.
Qed.
Lemma moR_incr x y : x < y -> y <= 1 -> moR x < moR y.
Proof. intros H H1. unfold moR. pose proof (sqrt_lt_1 (1 - y) (1 - x)). lra. Qed.
Lemma sqrt_c : sqrt (1 - CtC) = 32/100.
Proof. unfold CtC. replace (1 - 8976/10000) with (32/100 * (32/100)) by field. apply sqrt_square. lra. Qed.
Lemma moR_CtC : moR CtC = spR CtC.
Proof. unfold moR. rewrite sqrt_c. unfold spR, CtC. field. Qed.
Lemma indR_incr x y : x < y -> indR x < indR y.
Proof.
  intros H. assert (SP : forall a b, a < b -> spR a < spR b) by (intros; unfold spR; lra).
  unfold indR. destruct (Rlt_dec CtC x), (Rlt_dec CtC y); try (apply SP; auto); try lra.
  - destruct (Req_dec x CtC) as [->|Hx]; [rewrite moR_CtC; auto|].
    apply Rlt_trans with (moR CtC); [apply moR_incr; unfold CtC in *; lra|]. rewrite moR_CtC. apply SP; lra.
  - apply moR_incr; unfold CtC in *; lra.
Qed.
Definition dindR (c : R) : R := if Rlt_dec CtC c then 100/128 else / (4 * sqrt (1 - c)).
Lemma moR_deriv c : c < 1 -> is_derive moR c (/ (4 * sqrt (1 - c))).
Proof.
  intros H. unfold moR. pose proof (sqrt_lt_R0 (1 - c) ltac:(lra)).
  auto_derive; [lra|]. unfold Rminus in *. field. lra.
Qed.
Lemma spR_deriv c : is_derive spR c (100/128).
Proof. unfold spR. auto_derive; [auto|]. field. Qed.
(** gluing two functions at a point *)
Lemma glue_derive (f g : R -> R) x l : f x = g x -> is_derive f x l -> is_derive g x l ->
  is_derive (fun y => if Rlt_dec x y then g y else f y) x l.
Proof.
  intros E Hf Hg. apply is_derive_Reals in Hf, Hg. apply is_derive_Reals.
  intros eps He. destruct (Hf eps He) as (d1 & D1). destruct (Hg eps He) as (d2 & D2).
  assert (Hd : 0 < Rmin d1 d2) by (apply Rmin_pos; [apply d1|apply d2]).
  exists (mkposreal _ Hd). intros h Hh Hlt. cbn in Hlt.
  pose proof (Rmin_l d1 d2). pose proof (Rmin_r d1 d2).
  destruct (Rlt_dec x x); [lra|].
  destruct (Rlt_dec x (x + h)).
  - rewrite E. apply D2; lra.
  - apply D1; lra.
Qed.
Lemma ext_loc_derive (f g : R -> R) x l (d : posreal) :
  (forall y, Rabs (y - x) < d -> f y = g y) -> is_derive f x l -> is_derive g x l.
Proof. intros H. apply is_derive_ext_loc. exists d. intros y Hy. apply H. exact Hy. Qed.
Lemma indR_deriv c : is_derive indR c (dindR c).
Proof.
  unfold dindR. destruct (Rlt_dec CtC c) as [H|H].
  - apply (ext_loc_derive spR _ _ _ (mkposreal (c - CtC) ltac:(lra))); [|apply spR_deriv].
    cbn. intros y Hy. unfold indR. destruct (Rlt_dec CtC y); auto. exfalso.
    apply Rabs_def2 in Hy. lra.
  - destruct (Req_dec c CtC) as [->|Hc].
    + rewrite sqrt_c. replace (/ (4 * (32/100))) with (100/128) by field.
      apply (is_derive_ext (fun y => if Rlt_dec CtC y then spR y else moR y)); [reflexivity|].
      apply glue_derive; [apply moR_CtC| |apply spR_deriv].
      replace (100/128) with (/ (4 * sqrt (1 - CtC))) by (rewrite sqrt_c; field).
      apply moR_deriv. unfold CtC; lra.
    + apply (ext_loc_derive moR _ _ _ (mkposreal (CtC - c) ltac:(lra))); [|apply moR_deriv; unfold CtC in *; lra].
      cbn. intros y Hy. unfold indR. destruct (Rlt_dec CtC y); auto. exfalso.
      apply Rabs_def2 in Hy. lra.
Qed.
Lemma dindR_cont c : continuous dindR c.
Proof.
  assert (M : forall x, x < 1 -> continuous (fun y => / (4 * sqrt (1 - y))) x).
  { intros x Hx. pose proof (sqrt_lt_R0 (1 - x) ltac:(lra)).
    apply (ex_derive_continuous (fun y => / (4 * sqrt (1 - y)))). auto_derive. unfold Rminus in *. repeat split; lra. }
  destruct (Rlt_dec CtC c) as [H|H].
  - apply (continuous_ext_loc _ (fun _ => 100/128)).
    + exists (mkposreal (c - CtC) ltac:(lra)). cbn. intros y Hy. change (Rabs (y - c) < c - CtC) in Hy. unfold dindR.
      destruct (Rlt_dec CtC y); auto. exfalso. apply Rabs_def2 in Hy. lra.
    + apply continuous_const.
  - destruct (Req_dec c CtC) as [->|Hc].
    + pose proof (M CtC ltac:(unfold CtC; lra)) as MC.
      apply continuity_pt_filterlim in MC. apply continuity_pt_filterlim.
      intros eps He. destruct (MC eps He) as (d & Hd & D). exists d. split; auto.
      intros y [Hy1 Hy2]. unfold dindR. destruct (Rlt_dec CtC CtC); [lra|].
      destruct (Rlt_dec CtC y).
      * rewrite sqrt_c. cbn. unfold R_dist.
        replace (100/128 - / (4 * (32/100))) with 0 by field. rewrite Rabs_R0. exact He.
      * apply D. split; auto.
    + apply (continuous_ext_loc _ (fun y => / (4 * sqrt (1 - y)))).
      * exists (mkposreal (CtC - c) ltac:(lra)). cbn. intros y Hy. change (Rabs (y - c) < CtC - c) in Hy. unfold dindR.
        destruct (Rlt_dec CtC y); auto. exfalso. apply Rabs_def2 in Hy. lra.
      * apply M. unfold CtC in *; lra.
Qed.

(** ** The discrete loop, with swirl and high-thrust correction *)
Fixpoint rotloc (l : list (R * R)) : list R :=
  match l with
  | [] => []
  | (k, a) :: t => match t with
                   | [] => 0
                   | (k', a') :: _ => k' / 2 * (k' / 2) * (1 / (a * a) - 1 / (a' * a'))
                   end :: rotloc t
  end.
Fixpoint cte (l : list (R * R)) : list R :=
  match l with
  | [] => []
  | (k, a) :: t => (k * (1 + k / (4 * (a * a))) - lsum (rotloc t)) :: cte t
  end.
Fixpoint gR (ces : list R) : list R :=
  match ces with
  | [] => []
  | c :: t => (- (1 + lsum (gR t)) + (1 - 2 * indR c)) :: gR t
  end.
Fixpoint bR (ces : list R) : list R :=
  match ces with
  | [] => []
  | c :: t => (1 + lsum (gR t)) :: bR t
  end.
Lemma gR_sum c t : lsum (gR (c :: t)) = - 2 * indR c.
Proof. cbn [gR]. change (lsum (?x :: ?l)) with (x + lsum l). ring. Qed.
Lemma cte_length l : len (cte l) = len l.
Proof. induction l as [|[k a] l IH]; cbn; auto. Qed.
Lemma gR_length l : len (gR l) = len l.
Proof. induction l as [|a l IH]; cbn; auto. Qed.
Lemma bR_length l : len (bR l) = len l.
Proof. induction l as [|a l IH]; cbn; auto. Qed.
Definition q4 : Type := (R * R * X * X)%type.
Definition q4x (q : q4) : XN * XN * XN * XN := let '(k, l, ap, C) := q in (Fin k : XN, Fin l : XN, ap : XN, C : XN).
Definition q4kl (q : q4) : R * R := let '(k, l, ap, C) := q in (k, l).
Definition nextx (l : list (R * R)) : option (XN * XN) :=
  match l with [] => None | (k, a) :: _ => Some (Fin k : XN, Fin a : XN) end.

Lemma dloop_swirl (qs : list q4) : Forall (fun q => snd (q4kl q) <> 0) qs ->
  let kl := map q4kl qs in
  dloop (N := XN) true true (map q4x qs) =
  {| d_gs := map Fin (gR (cte kl)) : list XN; d_rl := map Fin (rotloc kl) : list XN; d_next := nextx kl;
     d_bs := map Fin (bR (cte kl)) : list XN; d_ce := map Fin (cte kl) : list XN |}.
Proof.
  intros H kl. unfold kl. clear kl. induction H as [|q qs Hq H IH]; [reflexivity|].
  cbn [map dloop fold_right]. fold (dloop (N := XN) true true (map q4x qs)). rewrite IH.
  destruct q as [[[k l] ap] C]. cbn [q4kl snd] in Hq.
  cbn [q4x]. unfold dstep. cbn [d_gs d_rl d_next d_bs d_ce q4kl].
  set (kl := map q4kl qs).
  change (map Fin (rotloc kl) : list XN) with (map Fin (rotloc kl)).
  rewrite !nsum_fin.
  assert (Hl2 : l * l <> 0) by (intros K; apply Rmult_integral in K; tauto).
  assert (EC : (nsub XN (nmul XN (Fin k : XN) (nadd XN (nZ XN 1) (ndiv XN (Fin k : XN) (nmul XN (nZ XN 4) (sq (Fin l : XN))))))
     (Fin (lsum (rotloc kl)) : XN)) = Fin (k * (1 + k / (4 * (l * l))) - lsum (rotloc kl))).
  { xn. rewrite xdiv_fin by lra. reflexivity. }
  rewrite EC.
  set (c := k * (1 + k / (4 * (l * l))) - lsum (rotloc kl)).
  assert (EB : match nextx kl with
               | Some _ => nadd XN (nZ XN 1) (Fin (lsum (gR (cte kl))) : XN)
               | None => nZ XN 1 end = Fin (1 + lsum (gR (cte kl)))).
  { destruct kl as [|[k' l'] kl']; cbn [nextx]; xn; f_equal. cbn. ring. }
  rewrite EB. cbn [cte gR bR map]. fold c. f_equal.
  - f_equal. rewrite Ct_c_X. change (nlt XN (Fin CtC) (Fin c)) with (Rltb CtC c). cbn [andb].
    unfold indR. destruct (Rlt_dec CtC c) as [K|K].
    + rewrite (proj2 (Rltb_true _ _)) by auto. rewrite spera_X. reflexivity.
    + rewrite (proj2 (Rltb_false _ _)) by lra. unfold CtC in K.
      change (nsub XN (nZ XN 1) (Fin c)) with (Fin (1 - c)). change (nsqrt XN) with xsqrt.
      rewrite xsqrt_fin by lra. xn. f_equal. unfold moR. field.
  - cbn [rotloc]. f_equal.
    destruct qs as [|[[[k' l'] ap'] C'] qs']; [reflexivity|]. cbn [map q4kl nextx kl].
    inversion H as [|? ? Hq' _]; subst. cbn [q4kl snd] in Hq'.
    assert (Hl2' : l' * l' <> 0) by (intros K; apply Rmult_integral in K; tauto).
    xn. rewrite !xdiv_fin by (auto; lra). reflexivity.
Qed.

(** suffix sums: a_i = -(1/2) sum_{j>=i} gamma_j *)
Fixpoint sufs (l : list R) : list R :=
  match l with [] => [] | x :: t => (- (lsum l / 2)) :: sufs t end.
Lemma cumsum_app (acc : R) l x :
  cumsum_from (N := XN) (Fin acc) (map Fin (l ++ [x])) =
  cumsum_from (N := XN) (Fin acc) (map Fin l) ++ [Fin (acc + lsum l + x)].
Proof.
  revert acc. induction l as [|y l IH]; intros acc; cbn [app map cumsum_from].
  - xn. do 2 f_equal. cbn. ring.
  - xn. rewrite IH. cbn [app]. do 4 f_equal. change (lsum (y :: l)) with (y + lsum l). ring.
Qed.
Lemma suffix_a_fin g : suffix_a (N := XN) (map Fin g) = map Fin (sufs g).
Proof.
  unfold suffix_a. nT. rewrite <- (map_rev Fin g).
  assert (E : map (fun x : XN => ndiv XN x (nZ XN 2)) (@map R X Fin (rev g)) = map Fin (map (fun x => x / 2) (rev g))).
  { apply (map_fin (fun x : XN => ndiv XN x (nZ XN 2))). intros a _. xn. apply xdiv_fin. lra. }
  nT. rewrite E. clear E. change (nZ XN 0) with (Fin 0).
  induction g as [|x t IH]; [reflexivity|]. cbn [rev sufs].
  rewrite map_app. cbn [map]. rewrite cumsum_app, map_app, rev_app_distr. cbn [map rev app]. nT.
  rewrite IH. f_equal. xn. f_equal.
  assert (S : forall l, lsum (map (fun x => x / 2) l) = lsum l / 2).
  { clear. induction l as [|y l IH]; [cbn; field|]. change (y / 2 + lsum (map (fun x => x / 2) l) = (y + lsum l) / 2).
    rewrite IH. field. }
  rewrite S, lsum_rev. change (lsum (x :: t)) with (x + lsum t). field.
Qed.
Lemma sufs_gR ces : sufs (gR ces) = map indR ces.
Proof.
  induction ces as [|c t IH]; [reflexivity|].
  change (sufs (gR (c :: t))) with (- (lsum (gR (c :: t)) / 2) :: sufs (gR t)).
  rewrite IH, gR_sum. cbn [map]. f_equal. field.
Qed.

(** ** Unfolding the discrete solver on finite inputs *)
Definition rcR (r_cp : list R) (Rr : R) : list R := default_r_cyl (N := RN) r_cp Rr.
Lemma midpoints_X r : midpoints (N := XN) (map Fin r) = map Fin (midpoints (N := RN) r).
Proof.
  induction r as [|a [|b r] IH]; [reflexivity|reflexivity|].
  cbn [map midpoints]. xn. rewrite xdiv_fin by lra. f_equal.
  destruct r as [|c r]; cbn [map].
  - rewrite xdiv_fin by lra. reflexivity.
  - exact IH.
Qed.
Lemma default_r_cyl_X r Rr : default_r_cyl (N := XN) (map Fin r) (Fin Rr) = map Fin (rcR r Rr).
Proof. destruct r as [|a [|b r]]; try reflexivity. apply midpoints_X. Qed.
Lemma gtilde_X g : gtilde (N := XN) (map Fin g) = map Fin (gtilde (N := RN) g).
Proof. induction g as [|a [|b g] IH]; [reflexivity|reflexivity|]. cbn [map gtilde]. f_equal. exact IH. Qed.
Lemma midpoints_length r : (2 <= len r)%nat -> len (midpoints (N := RN) r) = len r.
Proof.
  induction r as [|a [|b [|c r]] IH]; intros H; try (cbn in H; lia); [reflexivity|].
  cbn [midpoints len]. f_equal. apply IH. cbn; lia.
Qed.
Lemma rcR_length r Rr : r <> [] -> len (rcR r Rr) = len r.
Proof.
  destruct r as [|a [|b r]]; intros H; [congruence|reflexivity|]. apply midpoints_length. cbn; lia.
Qed.
Lemma map2_length_eq {A B C} (f : A -> B -> C) l m : len l = len m -> len (map2 f l m) = len l.
Proof. intros H. rewrite map2_length, H. lia. Qed.
Lemma ap_conv_len (N : Num) (Om : N) g rc : len g = len rc -> len (ap_conv Om g rc) = len g.
Proof.
  revert rc. induction g as [|a [|b g] IH]; intros [|r [|r' rc]] H; try discriminate; auto.
  change (S (len (ap_conv Om (b :: g) (r' :: rc))) = S (len (b :: g))). f_equal. apply IH. cbn in *; lia.
Qed.
Lemma gtilde_len (N : Num) (g : list N) : len (gtilde g) = len g.
Proof. induction g as [|a [|b g] IH]; auto. cbn [gtilde len]. f_equal. exact IH. Qed.
Lemma suffix_a_len (N : Num) (g : list N) : len (suffix_a g) = len g.
Proof.
  unfold suffix_a. rewrite rev_length, map_length.
  assert (K : forall (l : list N) a, len (cumsum_from a l) = len l) by (induction l; intros; cbn; auto).
  rewrite K, map_length, rev_length. reflexivity.
Qed.
Lemma dloop_len (N : Num) s h (qs : list (N * N * N * N)) :
  len (d_gs (dloop s h qs)) = len qs /\ len (d_bs (dloop s h qs)) = len qs /\ len (d_ce (dloop s h qs)) = len qs.
Proof.
  induction qs as [|[[[k l] ap] C] qs (I1 & I2 & I3)]; [auto|].
  cbn [dloop fold_right]. fold (dloop s h qs). unfold dstep. cbn [d_gs d_bs d_ce len]. auto.
Qed.

Lemma map2_pair_fin (a b : list R) :
  map2 pair (map Fin a) (map Fin b) = map (fun p => (Fin (fst p), Fin (snd p))) (map2 pair a b).
Proof. revert b; induction a as [|x a IH]; intros [|y b]; cbn; auto. f_equal. apply IH. Qed.
Lemma map2_fst {A B C} (f : A -> B -> C) (g : C -> A) l m :
  (forall a b, g (f a b) = a) -> (len l <= len m)%nat -> map g (map2 f l m) = l.
Proof.
  intros H. revert m; induction l as [|a l IH]; intros [|b m] L; cbn in *; auto; try lia.
  rewrite H, IH by lia. reflexivity.
Qed.
Definition qs_of (kl : list (R * R)) (ac : list (X * X)) : list q4 :=
  map2 (fun p q => (fst p, snd p, fst q, snd q)) kl ac.
Lemma qs_of_x kl ac :
  map2 (fun (kl ac : XN * XN) => (fst kl, snd kl, fst ac, snd ac))
    (map (fun p : R * R => (Fin (fst p) : XN, Fin (snd p) : XN)) kl) ac = map q4x (qs_of kl ac).
Proof.
  unfold qs_of. rewrite map_map2, map2_map_l. apply map2_ext. intros [? ?] [? ?]; reflexivity.
Qed.
Lemma qs_of_kl kl ac : (len kl <= len ac)%nat -> map q4kl (qs_of kl ac) = kl.
Proof. intros H. unfold qs_of. apply map2_fst; auto. intros [? ?] [? ?]; reflexivity. Qed.

Definition klR (G rc : list R) (U0 Om nB : R) : list (R * R) :=
  map2 pair (map (fun g => g * nB * Om / (PI * (U0 * U0))) G) (map (fun r => Om * r / U0) rc).
Lemma klR_length G rc U0 Om nB : len G = len rc -> len (klR G rc U0 Om nB) = len G.
Proof. intros H. unfold klR. rewrite map2_length_eq; rewrite !map_length; auto. Qed.

Definition cyl_of (r_cyl : option (list R)) (r_cp : list R) (Rr : R) : list R :=
  match r_cyl with None => rcR r_cp Rr | Some r => r end.

Lemma cons_ex {A} (l : list A) : l <> [] -> exists a l', l = a :: l'.
Proof. destruct l; [congruence|eauto]. Qed.
(** passing the two checks, any arithmetic *)
Lemma discr_checks (N : Num) (r_cp Gamma : list N) (R U0 Omega nB : N) bSwirl bTanInd_k bHigh r_cyl rc rc0 rc' :
  match r_cyl with None => default_r_cyl r_cp R | Some r => r end = rc ->
  r_cp <> [] -> rc = rc0 :: rc' -> nlt N (amax rc) (amax r_cp) = false -> neqb N rc0 (nZ N 0) = false ->
  WakeVorticityFromCirculation_Discr r_cp Gamma R U0 Omega nB bSwirl bTanInd_k bHigh r_cyl =
  (let G := map (fun g => g * nB) Gamma in
      let k_r := map (fun g => g * Omega / (npi N * sq U0)) G in
      let ap := if bTanInd_k then ap_conv Omega G rc else map (fun g => #0 * g) G in
      let C := map2 (fun g a => g * Omega / (npi N * sq U0) * (#1 + a)) G ap in
      let lR := map (fun r => Omega * r / U0) rc in
      let qs := map2 (fun kl ac => (fst kl, snd kl, fst ac, snd ac))
                     (map2 pair k_r lR) (map2 pair ap C) in
      let st := dloop bSwirl bHigh qs in
      let gbar := d_gs st in
      let Vc := map2 (fun b g => U0 * (b + g / #2)) (d_bs st) gbar in
      let h := map2 (fun v a => #2 * npi N * v / (Omega * (#1 + a))) Vc ap in
      let a := suffix_a gbar in
      let a_prime := if bSwirl then map2 (fun g r => g / (#4 * npi N * Omega * sq r)) G r_cp
                     else map (fun a => a * #0) a in
      let gt := gtilde G in
      Ok {| w_gt := map (fun g => g * U0) gbar;
            w_gl := if bSwirl then Some (map2 (fun g r => g / (#2 * npi N * r)) gt r_cp) else None;
            w_Gr := if bSwirl then Some (- (hd (nnan N) G)) else None;
            w_a := a; w_ap := a_prime; w_h := h; w_rcp_after := r_cp |})%num.
Proof.
  intros E Hne Erc H1 H2. unfold WakeVorticityFromCirculation_Discr. rewrite E, Erc. destruct r_cp; [congruence|].
  rewrite <- Erc, H1, H2. reflexivity.
Qed.

Section Discr.
  Variables (r_cp G : list R) (Rr U0 Om nB : R) (r_cyl : option (list R)).
  Let rc := cyl_of r_cyl r_cp Rr.
  Hypothesis Hne : r_cp <> [].
  Hypothesis HG : len G = len r_cp.
  Hypothesis Hrc : len rc = len r_cp.
  Hypothesis HU : U0 <> 0.
  Hypothesis HO : Om <> 0.
  Hypothesis Hnz : forall r, In r rc -> r <> 0.
  Hypothesis Henc : exists r, In r rc /\ forall x, In x r_cp -> x <= r.
  Let call bS bT bH := WakeVorticityFromCirculation_Discr (N := XN) (map Fin r_cp) (map Fin G) (Fin Rr) (Fin U0) (Fin Om) (Fin nB)
     bS bT bH (option_map (map Fin) r_cyl).

  Lemma rc_X : match option_map (map Fin) r_cyl with
               | None => default_r_cyl (N := XN) (map Fin r_cp) (Fin Rr) | Some r => r end = map Fin rc.
  Proof. unfold rc, cyl_of. destruct r_cyl; [reflexivity|]. apply default_r_cyl_X. Qed.
  Lemma kR_X : map (fun g : XN => ndiv XN (nmul XN g (Fin Om)) (nmul XN (npi XN) (sq (Fin U0 : XN)))) (map (fun g : XN => nmul XN g (Fin nB)) (map Fin G))
      = map Fin (map (fun g => g * nB * Om / (PI * (U0 * U0))) G).
  Proof.
    rewrite !map_map. apply map_ext. intros g. xn. apply xdiv_fin.
    pose proof PI_neq0. intros K. apply Rmult_integral in K. destruct K as [K|K]; auto.
    apply Rmult_integral in K; tauto.
  Qed.
  Lemma lR_X : map (fun r : XN => ndiv XN (nmul XN (Fin Om) r) (Fin U0)) (map Fin rc) = map Fin (map (fun r => Om * r / U0) rc).
  Proof. rewrite !map_map. apply map_ext. intros r. xn. apply xdiv_fin. auto. Qed.

  Definition GX : list XN := map (fun g : XN => nmul XN g (Fin nB)) (map Fin G).
  Definition apX (bT : bool) : list XN := if bT then ap_conv (N := XN) (Fin Om) GX (map Fin rc) else map (fun g => nmul XN (nZ XN 0) g) GX.
  Definition CX (bT : bool) : list XN :=
    map2 (fun g a => nmul XN (ndiv XN (nmul XN g (Fin Om)) (nmul XN (npi XN) (sq (Fin U0 : XN)))) (nadd XN (nZ XN 1) a)) GX (apX bT).
  Definition qsX (bT : bool) := qs_of (klR G rc U0 Om nB) (map2 pair (apX bT) (CX bT)).
  Lemma GX_len : len GX = len r_cp.
  Proof. unfold GX. rewrite !map_length; auto. Qed.
  Lemma apX_len bT : len (apX bT) = len r_cp.
  Proof.
    unfold apX. destruct bT.
    - rewrite ap_conv_len; rewrite GX_len, ?map_length; auto.
    - rewrite map_length. apply GX_len.
  Qed.
  Lemma CX_len bT : len (CX bT) = len r_cp.
  Proof. unfold CX. rewrite map2_length_eq; rewrite GX_len, ?apX_len; auto. Qed.
  Lemma kl_qs bT : map q4kl (qsX bT) = klR G rc U0 Om nB.
  Proof.
    unfold qsX. apply qs_of_kl. rewrite map2_length_eq by (rewrite apX_len, CX_len; auto).
    rewrite apX_len, klR_length; lia.
  Qed.
  Lemma kl_nz : List.Forall (fun p => snd p <> 0) (klR G rc U0 Om nB).
  Proof.
    unfold klR. assert (L : len G = len rc) by congruence. clear - L HU HO Hnz.
    revert L Hnz. generalize rc. intros l. revert G. induction l as [|r l IH]; intros [|g G'] L Hn; try discriminate; cbn [map map2]; constructor.
    - cbn [snd]. pose proof (Hn r (or_introl eq_refl)). intros K. apply (f_equal (fun x => x * U0)) in K.
      unfold Rdiv in K. rewrite Rmult_assoc, Rinv_l, Rmult_1_r, Rmult_0_l in K by auto.
      apply Rmult_integral in K; tauto.
    - apply IH; [cbn in L; lia|]. intros x Hx. apply Hn. now right.
  Qed.
  Lemma qs_nz bT : List.Forall (fun q => snd (q4kl q) <> 0) (qsX bT).
  Proof.
    pose proof kl_nz as K. rewrite <- (kl_qs bT) in K. rewrite Forall_map in K. exact K.
  Qed.

  (** the checks pass, and the solver returns *)
  Lemma discr_ok bS bT bH : 
    let st := dloop (N := XN) bS bH (map q4x (qsX bT)) in
    call bS bT bH = Ok
      {| w_gt := map (fun g => nmul XN g (Fin U0)) (d_gs st);
         w_gl := if bS then Some (map2 (fun g r => ndiv XN g (nmul XN (nmul XN (nZ XN 2) (npi XN)) r)) (gtilde GX) (map Fin r_cp)) else None;
         w_Gr := if bS then Some (nopp XN (hd NaN GX)) else None;
         w_a := suffix_a (d_gs st);
         w_ap := if bS then map2 (fun g r => ndiv XN g (nmul XN (nmul XN (nmul XN (nZ XN 4) (npi XN)) (Fin Om)) (sq (r : XN)))) GX (map Fin r_cp)
                 else map (fun a => nmul XN a (nZ XN 0)) (suffix_a (d_gs st));
         w_h := map2 (fun v a => ndiv XN (nmul XN (nmul XN (nZ XN 2) (npi XN)) v) (nmul XN (Fin Om) (nadd XN (nZ XN 1) a)))
                  (map2 (fun b g => nmul XN (Fin U0) (nadd XN b (ndiv XN g (nZ XN 2)))) (d_bs st) (d_gs st)) (apX bT);
         w_rcp_after := map Fin r_cp |}.
  Proof.
    intros st. unfold call.
    destruct (amax_fin r_cp Hne) as (M & EM & IM & _).
    assert (Hrne : rc <> []) by (intros K; rewrite K in Hrc; symmetry in Hrc; apply length_zero_iff_nil in Hrc; contradiction).
    destruct (amax_fin rc Hrne) as (M' & EM' & _ & UM').
    destruct Henc as (rm & Irm & Urm).
    assert (Hd : exists rc0 rc', rc = rc0 :: rc') by (apply cons_ex; auto).
    destruct Hd as (rc0 & rc' & Ed).
    rewrite (discr_checks XN _ _ _ _ _ _ _ _ _ _ (map Fin rc) (Fin rc0) (map Fin rc')).
    - cbv zeta. fold GX. unfold st, qsX. rewrite <- qs_of_x. unfold klR.
      pose proof kR_X as K1. pose proof lR_X as K2. fold GX in K1. 
      rewrite <- map2_pair_fin. nT. rewrite <- K1, <- K2. reflexivity.
    - apply rc_X.
    - intros K. apply map_eq_nil in K. contradiction.
    - rewrite Ed. reflexivity.
    - nT. rewrite EM, EM'. xn. apply Rltb_false. pose proof (UM' _ Irm); pose proof (Urm _ IM); lra.
    - xn. apply Reqb_false. apply Hnz. rewrite Ed. now left.
  Qed.
End Discr.

(** ** Cylinder radii *)
Lemma midpoints_nth r i : (2 <= len r)%nat -> (i < len r)%nat ->
  nth i (midpoints (N := RN) r) 0 =
  if Nat.eqb (S i) (len r) then nth i r 0 + (nth i r 0 - nth (i - 1) r 0) / 2
  else (nth (S i) r 0 + nth i r 0) / 2.
Proof.
  revert i. induction r as [|a [|b [|c r]] IH]; intros i H Hi; try (cbn in H; lia).
  - destruct i as [|[|i]]; [reflexivity|reflexivity|cbn in Hi; lia].
  - destruct i as [|i]; [reflexivity|].
    transitivity (nth i (midpoints (N := RN) (b :: c :: r)) 0); [reflexivity|].
    rewrite IH by (cbn in *; lia).
    change (Nat.eqb (S (S i)) (len (a :: b :: c :: r))) with (Nat.eqb (S i) (len (b :: c :: r))).
    destruct (Nat.eqb (S i) (len (b :: c :: r))) eqn:E; [|reflexivity].
    apply Nat.eqb_eq in E. destruct i as [|i]; [cbn in E; lia|]. cbn [Nat.sub]. rewrite !Nat.sub_0_r. reflexivity.
Qed.

(** ** Discrete loop without swirl, no tangential convection *)
Fixpoint nbR (ks : list R) : R :=
  match ks with
  | [] => 1
  | k :: t => if Rlt_dec CtC k then 1 - 2 * spR k else sqrt (nbR t * nbR t - (k - hd 0 t))
  end.
Fixpoint gnR (ks : list R) : list R :=
  match ks with [] => [] | k :: t => (- nbR t + nbR ks) :: gnR t end.
Lemma nbR_inv ks : 1 <= nbR ks * nbR ks + hd 0 ks.
Proof.
  induction ks as [|k t IH]; cbn [nbR hd]; [lra|].
  destruct (Rlt_dec CtC k) as [H|H].
  - unfold spR. unfold CtC in H.
    assert (E : (1 - 2 * ((k - 4624/10000) / (128/100))) * (1 - 2 * ((k - 4624/10000) / (128/100))) + k - 1
                = (k - 8976/10000) * (k - 8976/10000) * (40000/16384)) by field.
    assert (0 <= (k - 8976/10000) * (k - 8976/10000)) by nra. nra.
  - unfold CtC in H. rewrite sqrt_sqrt; lra.
Qed.
Lemma gnR_sum ks : 1 + lsum (gnR ks) = nbR ks.
Proof.
  induction ks as [|k t IH]; [cbn; ring|].
  change (lsum (gnR (k :: t))) with ((- nbR t + nbR (k :: t)) + lsum (gnR t)). lra.
Qed.
Lemma sufs_gnR k t : sufs (gnR (k :: t)) = ((1 - nbR (k :: t)) / 2) :: sufs (gnR t).
Proof.
  change (sufs (gnR (k :: t))) with (- (lsum (gnR (k :: t)) / 2) :: sufs (gnR t)). f_equal.
  rewrite <- (gnR_sum (k :: t)). field.
Qed.
Lemma dloop_nosw (kls : list (R * R)) : List.Forall (fun q => snd q <> 0) kls ->
  exists rl bs ce,
  dloop (N := XN) false true (map (fun p => (Fin (fst p) : XN, Fin (snd p) : XN, Fin 0 : XN, Fin (fst p) : XN)) kls) =
  {| d_gs := map Fin (gnR (map fst kls)) : list XN; d_rl := rl; d_next := nextx kls; d_bs := bs; d_ce := ce |}.
Proof.
  induction 1 as [|[k l] kls Hq H (rl & bs & ce & IH)]; [do 3 eexists; reflexivity|].
  cbn [map dloop fold_right fst snd]. fold (dloop (N := XN) false true (map (fun p => (Fin (fst p) : XN, Fin (snd p) : XN, Fin 0 : XN, Fin (fst p) : XN)) kls)).
  rewrite IH. unfold dstep. cbn [d_gs d_rl d_next d_bs d_ce]. do 3 eexists.
  match goal with |- {| d_gs := ?a :: _; d_rl := _; d_next := _; d_bs := _; d_ce := _ |} = _ =>
    assert (E : a = Fin (- nbR (map fst kls) + nbR (k :: map fst kls))) end.
  { rewrite nsum_fin.
    assert (EB : match nextx kls with
               | Some _ => nadd XN (nZ XN 1) (Fin (lsum (gnR (map fst kls))) : XN)
               | None => nZ XN 1 end = Fin (nbR (map fst kls))).
    { rewrite <- gnR_sum. destruct kls as [|[k' l'] kl']; cbn [nextx]; xn; f_equal. cbn. ring. }
    rewrite EB.
    assert (ES : match nextx kls with
               | Some (k', _) => nsub XN (sq (Fin (nbR (map fst kls)) : XN)) (nmul XN (nsub XN (Fin k) k') (nadd XN (nZ XN 1) (Fin 0)))
               | None => nsub XN (nZ XN 1) (Fin k) end = Fin (nbR (map fst kls) * nbR (map fst kls) - (k - hd 0 (map fst kls)))).
    { destruct kls as [|[k' l'] kl']; cbn [nextx map fst hd]; xn; f_equal; cbn [nbR]; ring. }
    rewrite ES. rewrite Ct_c_X. cbn [andb].
    assert (EC : nsub XN (Fin k) (nZ XN 0) = Fin k) by (xn; f_equal; ring). rewrite EC.
    change (nlt XN (Fin CtC) (Fin k)) with (Rltb CtC k). cbn [nbR].
    destruct (Rlt_dec CtC k) as [K|K].
    - rewrite (proj2 (Rltb_true _ _)) by auto. rewrite spera_X. reflexivity.
    - rewrite (proj2 (Rltb_false _ _)) by lra. change (nsqrt XN) with xsqrt.
      pose proof (nbR_inv (map fst kls)). unfold CtC in K.
      rewrite xsqrt_fin by lra. reflexivity. }
  rewrite E. reflexivity.
Qed.

Lemma nz4 a b : a <> 0 -> b <> 0 -> 4 * PI * a * b * (4 * PI * a * b) <> 0.
Proof.
  intros Ha Hb. pose proof PI_RGT_0.
  assert (4 * PI * a * b <> 0).
  { apply Rmult_integral_contrapositive_currified; auto. apply Rmult_integral_contrapositive_currified; auto. lra. }
  apply Rmult_integral_contrapositive_currified; auto.
Qed.
Lemma ap_conv_X Om g rc : Om <> 0 -> (forall r, In r rc -> r <> 0) -> len g = len rc ->
  ap_conv (N := XN) (Fin Om) (map Fin g) (map Fin rc) = map Fin (ap_conv (N := RN) Om g rc).
Proof.
  intros HO. revert rc. induction g as [|a [|b g] IH]; intros [|r [|r' rc]] Hn HL; try discriminate; [reflexivity| |].
  - assert (D : 4 * PI * Om * r * (4 * PI * Om * r) <> 0).
    { apply nz4; auto. apply Hn. now left. }
    cbn [map ap_conv]. xn. rewrite xdiv_fin by auto. reflexivity.
  - assert (D : 4 * PI * Om * r * (4 * PI * Om * r) <> 0).
    { apply nz4; auto. apply Hn. now left. }
    change (ap_conv (N := XN) (Fin Om) (map Fin (a :: b :: g)) (map Fin (r :: r' :: rc))) with
      (ndiv XN (nadd XN (Fin a) (Fin b)) (sq (nmul XN (nmul XN (nmul XN (nZ XN 4) (npi XN)) (Fin Om)) (Fin r)))
        :: ap_conv (N := XN) (Fin Om) (map Fin (b :: g)) (map Fin (r' :: rc))).
    rewrite IH by (try (intros x Hx; apply Hn; now right); cbn in *; lia).
    change (ap_conv (N := RN) Om (a :: b :: g) (r :: r' :: rc)) with
      (ndiv RN (nadd RN a b) (sq (nmul RN (nmul RN (nmul RN (nZ RN 4) (npi RN)) Om) r)) :: ap_conv (N := RN) Om (b :: g) (r' :: rc)).
    cbn [map]. f_equal. xn. rewrite xdiv_fin by auto. reflexivity.
Qed.
Lemma ap_conv_nth (Om : R) g rc i : len g = len rc -> (i < len g)%nat ->
  nth i (ap_conv (N := RN) Om g rc) 0 = (nth i g 0 + nth (S i) g 0) / (4 * PI * Om * nth i rc 0 * (4 * PI * Om * nth i rc 0)).
Proof.
  revert rc i. induction g as [|a [|b g] IH]; intros [|r [|r' rc]] i HL Hi; try discriminate; try (cbn in Hi; lia).
  - destruct i as [|i]; [|cbn in Hi; lia]. cbn [ap_conv nth]. xn. f_equal. ring.
  - change (ap_conv (N := RN) Om (a :: b :: g) (r :: r' :: rc)) with
      (ndiv RN (nadd RN a b) (sq (nmul RN (nmul RN (nmul RN (nZ RN 4) (npi RN)) Om) r)) :: ap_conv (N := RN) Om (b :: g) (r' :: rc)).
    destruct i as [|i]; [reflexivity|].
    change (nth (S i) (?x :: ap_conv (N := RN) Om (b :: g) (r' :: rc)) 0) with (nth i (ap_conv (N := RN) Om (b :: g) (r' :: rc)) 0).
    rewrite IH by (cbn in *; lia). reflexivity.
Qed.
Lemma bR_nth ces i : (i < len ces)%nat -> nth i (bR ces) 0 = 1 - 2 * nth (S i) (map indR ces) 0.
Proof.
  revert i. induction ces as [|c t IH]; intros i Hi; [cbn in Hi; lia|].
  destruct i as [|i].
  - cbn [bR nth map]. destruct t as [|c' t]; [cbn; ring|]. rewrite gR_sum. cbn [map nth]. ring.
  - cbn [bR nth]. rewrite IH by (cbn in Hi; lia). reflexivity.
Qed.
Lemma gR_nth ces i : (i < len ces)%nat ->
  nth i (gR ces) 0 = 2 * nth (S i) (map indR ces) 0 - 2 * nth i (map indR ces) 0.
Proof.
  revert i. induction ces as [|c t IH]; intros i Hi; [cbn in Hi; lia|].
  destruct i as [|i].
  - cbn [gR nth map]. destruct t as [|c' t]; [cbn; ring|]. rewrite gR_sum. cbn [map nth]. ring.
  - cbn [gR nth]. rewrite IH by (cbn in Hi; lia). reflexivity.
Qed.
Lemma gtilde_sum g : lsum (gtilde (N := RN) g) = hd 0 g.
Proof.
  induction g as [|a [|b g] IH]; [reflexivity|cbn; ring|].
  change (lsum (gtilde (N := RN) (a :: b :: g))) with ((a - b) + lsum (gtilde (N := RN) (b :: g))).
  rewrite IH. cbn [hd]. ring.
Qed.
