(** * C122: blockage of a whole wind farm *)
From Coquelicot Require Import Coquelicot.
From Coq Require Import ZArith List Bool Arith Lia String Reals Lra Psatz.
From Verif Require Import Num NumR NumX M_Elliptic M_Cylinder M_Turbine M_Farm M_Study L_List L_X L_Built Spec L_Layout L_Calc L_Carlson L_Ell L_Cyl P_Line P_Ring P_Cylinder P_Cylinder2 P_Cylinder3 P_Blockage P_Grid.
Import ListNotations.
Local Open Scope R_scope.
Local Notation len := List.length.

(** ** Specification: sums over a grid of nc x nz x nx turbines *)
Definition sum_upto (n : nat) (f : nat -> R) : R := lsum (map f (seq 0 n)).
Definition grid_sum (nc nz nx : nat) (K : nat -> nat -> nat -> R) : R := sum_upto nc (fun c => sum_upto nz (fun i => sum_upto nx (fun j => K c i j))).
(** number of copies of the grid: the farm, and its mirror image in the ground *)
Definition copies (mirror : bool) : nat := if mirror then 2%nat else 1%nat.
(** [k] is the factor of the axial velocity one rotor of radius Rr centred at [c] induces at [p], see C119 *)
Definition rotor_at (Rr : R) (p c : R3) (k : R) : Prop := let d := sub3 p c in let r := sqrt (px d ^ 2 + py d ^ 2) in
  (Rabs (r - Rr) / Rr < 1 / 100000000 /\ Rabs (pz d / Rr) < 1 / 100000000 -> k = 1 / 4) /\
  (~ (Rabs (r - Rr) / Rr < 1 / 100000000 /\ Rabs (pz d / Rr) < 1 / 100000000) -> blockage Rr r (pz d) k).

(** ** The field of an exact cylinder as a function of the point *)
Definition VC (g Rr : R) (p : R3) : R3 := if rimb Rr (rho p) (pz p) then (0, 0, g * (1 / 4))
  else (Cr g Rr (rax Rr (rho p)) (pz p) * cos (azim p), Cr g Rr (rax Rr (rho p)) (pz p) * sin (azim p), g * kz Rr (rax Rr (rho p)) (pz p)).
Lemma exact_field PIb g Rr pts : third PIb exact3 -> 0 < Rr -> vc_tang_u_gen (N := XN) PIb (Fin g) (Fin Rr) (Fin 0) (map xv pts) = map xv (map (VC g Rr) pts).
Proof.
  intros HT hR. apply nth_error_ext. intros i. destruct (nth_error pts i) as [p|] eqn:Hi.
  - rewrite !nth_error_map, Hi. cbn [option_map]. unfold VC. destruct (rimb_spec Rr (rho p) (pz p)) as [Z|Z].
    + destruct (vcu_at PIb exact3 g Rr pts i p HT hR Hi) as (q & _ & E2 & _). rewrite E2. unfold vcR. destruct (rimb_spec Rr (rho p) (pz p)) as [_|Z']; [|contradiction]. cbn [fst snd].
      rewrite !Rmult_0_l. do 3 f_equal. field.
    + apply vc_exact; auto.
  - rewrite !nth_error_map, Hi. cbn [option_map]. apply nth_error_None in Hi. apply nth_error_None. unfold vc_tang_u_gen. rewrite map2_length, map_length. lia.
Qed.
Lemma VC_0 Rr p : VC 0 Rr p = zero.
Proof. unfold VC, Cr. destruct (rimb Rr (rho p) (pz p)); unfold zero; repeat f_equal; unfold Rdiv; ring. Qed.
Lemma vcs_exact PIb g Rr pts : third PIb exact3 -> 0 < Rr -> forall P (w : R3 -> R3),
    fold_left (fun (u : list (X * X * X)) (cyl : (X * X * X) * list (X * X)) =>
      fold_left (fun u Y =>
        fold_left (fun u gr =>
          if nlt XN (nZ XN 0) (nabs XN (fst gr)) then fadd (N := XN) u (vc_tang_u_gen (N := XN) PIb (fst gr) (snd gr) (Fin 0) Y) else u)
          (snd cyl) u)
        (ylist (N := XN) false (fst cyl) (map xv pts)) u)
      (map (fun c => (xv c, [(Fin g, Fin Rr)])) P) (map xv (map w pts)) = map xv (map (fun p => add3 (w p) (sum3 (map (fun c => VC g Rr (sub3 p c)) P))) pts).
Proof.
  intros HT hR. induction P as [|c P IH]; intros w.
  - cbn [map fold_left sum3 fold_right]. f_equal. apply map_ext. intros p. symmetry. apply add3_0_r.
  - cbn [map fold_left fst snd ylist].
    assert (SH : map (shift (N := XN) (xv c)) (map xv pts) = map xv (map (fun p => sub3 p c) pts)).
    { rewrite !map_map. apply map_ext. intros p. apply shift_xv. }
    rewrite SH, exact_field by auto. rewrite (fadd_xv (map w pts)).
    assert (E : (if nlt XN (nZ XN 0) (nabs XN (Fin g)) then map xv (map2 add3 (map w pts) (map (VC g Rr) (map (fun p => sub3 p c) pts))) else map xv (map w pts)) = map xv (map (fun p => add3 (w p) (VC g Rr (sub3 p c))) pts)).
    { destruct (nlt XN (nZ XN 0) (nabs XN (Fin g))) eqn:G.
      - f_equal. clear. induction pts as [|p pts IH]; [reflexivity|]. cbn [map map2]. rewrite IH. reflexivity.
      - cbn in G. apply Rltb_false in G. pose proof (Rabs_pos g). assert (g0 : g = 0). { destruct (Req_dec g 0) as [|Hg]; auto. apply Rabs_pos_lt in Hg. lra. }
        subst g. f_equal. apply map_ext. intros p. rewrite VC_0. symmetry. apply add3_0_r. }
    rewrite E, IH. f_equal. apply map_ext. intros p. cbn [sum3 fold_right map]. apply add3_assoc.
Qed.
Lemma sum_upto_S n f : sum_upto (S n) f = sum_upto n f + f n.
Proof. unfold sum_upto. rewrite seq_S, map_app, lsum_app. cbn. ring. Qed.
Lemma sum_upto_0 f : sum_upto 0 f = 0.
Proof. reflexivity. Qed.
Lemma sum_upto_mul a b F : sum_upto (a * b) F = sum_upto a (fun i => sum_upto b (fun j => F (i * b + j)%nat)).
Proof.
  induction a as [|a IH]; [reflexivity|]. rewrite sum_upto_S, <- IH. replace (S a * b)%nat with (a * b + b)%nat by lia.
  unfold sum_upto. rewrite seq_app, map_app, lsum_app. f_equal. cbn [Nat.add]. generalize (a * b)%nat. intros m. f_equal. replace m with (m + 0)%nat at 1 by lia. generalize 0%nat. clear IH. induction b as [|b IHb]; intros s; [reflexivity|].
  cbn [seq map]. f_equal. specialize (IHb (S s)). rewrite <- plus_n_Sm in IHb. exact IHb.
Qed.
Lemma sum_upto_ext n f g : (forall i, (i < n)%nat -> f i = g i) -> sum_upto n f = sum_upto n g.
Proof. intros H. unfold sum_upto. f_equal. apply map_ext_in. intros i Hi. apply in_seq in Hi. apply H. lia. Qed.
Lemma sum_upto_scal n k f : sum_upto n (fun i => k * f i) = k * sum_upto n f.
Proof. induction n as [|n IH]; [unfold sum_upto; cbn; ring|]. rewrite !sum_upto_S, IH. ring. Qed.
Lemma sum_list (f : R3 -> R) (P : list R3) d : lsum (map f P) = sum_upto (len P) (fun q => f (nth q P d)).
Proof.
  unfold sum_upto. f_equal. rewrite <- (map_map (fun q => nth q P d) f). f_equal. symmetry. induction P as [|p P IH]; [reflexivity|]. cbn [len seq map nth]. f_equal. rewrite <- seq_shift, map_map. exact IH.
Qed.
Lemma sum3_pz l : pz (sum3 l) = lsum (map pz l).
Proof. induction l as [|v l IH]; [reflexivity|]. unfold sum3, lsum in *. cbn [fold_right map]. rewrite <- IH. reflexivity. Qed.
(** factor of one rotor *)
Definition kr (Rr : R) (d : R3) : R := if rimb Rr (rho d) (pz d) then 1 / 4 else kz Rr (rax Rr (rho d)) (pz d).
Lemma VC_pz g Rr d : pz (VC g Rr d) = g * kr Rr d.
Proof. unfold VC, kr. destruct (rimb Rr (rho d) (pz d)); reflexivity. Qed.
Lemma kr_rotor Rr p c : 0 < Rr -> rotor_at Rr p c (kr Rr (sub3 p c)).
Proof.
  intros hR. unfold rotor_at. set (d := sub3 p c). cbv zeta. assert (ER : sqrt (px d ^ 2 + py d ^ 2) = rho d) by (unfold rho; f_equal; ring). rewrite ER. unfold kr.
  assert (hr : 0 <= rho d) by apply sqrt_pos.
  destruct (rimb_spec Rr (rho d) (pz d)) as [Z|Z]; unfold rim_zone in Z; split; intros H; try reflexivity; try contradiction.
  apply blockage_rax; auto. apply kz_blockage; auto. apply rax_side; auto.
Qed.
Definition gk nx dx dz h Rr p c i j := kr Rr (sub3 p (grid_pos nx dx dz h c i j)).
Lemma farm_field PIb nx dx nz dz h (mirror : bool) Rr CT U0 (pts : list R3) : third PIb exact3 -> 0 < Rr -> CT <= 1 ->
  exists us : list R3, windfarm_gridlayout_CTconst_gen (N := XN) PIb (Fin Rr) (Fin CT) (Fin U0) nx (Fin dx) nz (Some (Fin dz)) (Fin h) mirror (map xv pts) = Ok (map xv us) /\ len us = len pts /\
  forall k p, nth_error pts k = Some p -> exists ux uy, nth_error us k = Some (ux, uy, - U0 * (1 - sqrt (1 - CT)) * grid_sum (copies mirror) nz nx (gk nx dx dz h Rr p)).
Proof.
  intros HT hR hC. destruct (grid_fin nx dx nz dz h mirror) as (P & E & L & HP). set (g := - U0 * (1 - sqrt (1 - CT))).
  assert (GG : (nmul XN (nmul XN (nopp XN (nZ XN 2)) (Fin U0)) (nmul XN (nQ XN 5 10) (nsub XN (nZ XN 1) (nsqrt XN (nsub XN (nZ XN 1) (Fin CT)))))) = Fin g).
  { xfin ltac:(lra). unfold g. f_equal. lra. }
  exists (map (fun p => sum3 (map (fun c => VC g Rr (sub3 p c)) P)) pts). split; [|split].
  - unfold windfarm_gridlayout_CTconst_gen. rewrite E. cbn [bind]. rewrite GG. f_equal.
    change (nadd XN (nZ XN 0) (Fin g)) with (xadd (Fin 0) (Fin g)). change (nadd XN (nZ XN 0) (Fin Rr)) with (xadd (Fin 0) (Fin Rr)).
    nT. rewrite cyls_eq. unfold vcs_tang_u_gen. pose proof (vcs_exact PIb g Rr pts HT hR P (fun _ => zero)) as K.
    etransitivity; [etransitivity; [|exact K]|].
    + f_equal. unfold fzero. rewrite !map_map. reflexivity.
    + f_equal. apply map_ext. intros p. rewrite add3_comm. apply add3_0_r.
  - apply map_length.
  - intros k p Hk. rewrite nth_error_map, Hk. cbn [option_map]. set (v := sum3 _). exists (px v), (py v). f_equal. replace (g * _) with (pz v); [destruct v as [[? ?] ?]; reflexivity|].
    unfold v. rewrite sum3_pz, map_map. rewrite (map_ext _ (fun c => g * kr Rr (sub3 p c))) by (intros; apply VC_pz).
    rewrite (sum_list (fun c => g * kr Rr (sub3 p c)) P zero), sum_upto_scal. f_equal. rewrite L.
    replace (nz * nx * (if mirror then 2 else 1))%nat with (copies mirror * nz * nx)%nat by (unfold copies; destruct mirror; ring).
    rewrite sum_upto_mul, sum_upto_mul. unfold grid_sum. apply sum_upto_ext. intros c Hc. apply sum_upto_ext. intros i Hi. apply sum_upto_ext. intros j Hj.
    unfold gk. pose proof (HP c i j Hc Hi Hj) as Q. rewrite (nth_error_nth _ _ _ Q). reflexivity.
Qed.

(** ** C122 *)
(** [uz] is the axial velocity the grid farm induces at the k-th control point *)
Definition farm_uz (PIb : list (X * X) -> list X) nx dx nz dz h mirror Rr CT U0 (pts : list R3) k uz : Prop := exists us ux uy,
  windfarm_gridlayout_CTconst_gen (N := XN) PIb (Fin Rr) (Fin CT) (Fin U0) nx (Fin dx) nz (Some (Fin dz)) (Fin h) mirror (map xv pts) = Ok (map xv us) /\
  len us = len pts /\ nth_error us k = Some (ux, uy, uz).
Lemma farm_uz_at PIb nx dx nz dz h mirror Rr CT U0 pts k p : third PIb exact3 -> 0 < Rr -> CT <= 1 -> nth_error pts k = Some p ->
  farm_uz PIb nx dx nz dz h mirror Rr CT U0 pts k (- U0 * (1 - sqrt (1 - CT)) * grid_sum (copies mirror) nz nx (gk nx dx dz h Rr p)).
Proof. intros HT hR hC Hk. destruct (farm_field PIb nx dx nz dz h mirror Rr CT U0 pts HT hR hC) as (us & E & L & H). destruct (H k p Hk) as (ux & uy & Q). exists us, ux, uy. auto. Qed.
Theorem C122_farm_axial : forall PIb nx dx nz dz h mirror Rr CT U0 pts k p, third PIb exact3 -> 0 < Rr -> CT <= 1 -> nth_error pts k = Some p ->
  exists K, farm_uz PIb nx dx nz dz h mirror Rr CT U0 pts k (- U0 * (1 - sqrt (1 - CT)) * grid_sum (copies mirror) nz nx K) /\
    forall c i j, rotor_at Rr p (grid_pos nx dx dz h c i j) (K c i j).
Proof. intros. exists (gk nx dx dz h Rr p). split; [apply farm_uz_at; auto|]. intros c i j. apply kr_rotor; auto. Qed.
Lemma up_neg (dz z Rr : R) (i : nat) : 0 < Rr -> 0 <= dz -> z <= - (1 / 100000000 * Rr) -> z - IZR (Z.of_nat i) * dz <= - (1 / 100000000 * Rr).
Proof. intros hR hd hz. assert (0 <= IZR (Z.of_nat i)) by (apply IZR_le; lia). assert (0 <= IZR (Z.of_nat i) * dz) by (apply Rmult_le_pos; auto). lra. Qed.
Lemma rotor_up Rr p c k : 0 < Rr -> pz p - pz c <= - (1 / 100000000 * Rr) -> rotor_at Rr p c k -> 0 < k < 1 / 2.
Proof.
  intros hR hz [_ H]. cbv zeta in H. set (d := sub3 p c) in *. assert (Z : pz d <= - (1 / 100000000 * Rr)) by exact hz.
  destruct H as (A & B & C).
  - intros [_ Q]. unfold Rdiv in Q at 1. rewrite Rabs_mult, (Rabs_right (/ Rr)) in Q by (apply Rle_ge; left; apply Rinv_0_lt_compat; auto).
    apply (Rmult_lt_compat_r Rr) in Q; auto. rewrite Rmult_assoc, Rinv_l, Rmult_1_r in Q by lra. rewrite Rabs_left in Q by lra. lra.
  - assert (pz d < 0) by lra. set (r := sqrt (px d ^ 2 + py d ^ 2)) in *. destruct (Rtotal_order r Rr) as [T|[T|T]].
    + destruct (A T) as (A1 & _). auto.
    + destruct (B T) as (B1 & _). specialize (B1 H). lra.
    + destruct (C T) as (C1 & _). specialize (C1 H). lra.
Qed.
Lemma gk_up nx dx dz h Rr p c i j : 0 < Rr -> 0 <= dz -> pz p <= - (1 / 100000000 * Rr) -> 0 < gk nx dx dz h Rr p c i j < 1 / 2.
Proof. intros hR hd hz. apply (rotor_up Rr p (grid_pos nx dx dz h c i j)); auto; [|apply kr_rotor; auto]. unfold grid_pos, pz at 2. cbn [snd]. apply up_neg; auto. Qed.
Lemma sum_upto_bounds n f a b : (forall i, (i < n)%nat -> a < f i < b) -> INR n * a <= sum_upto n f <= INR n * b /\ ((0 < n)%nat -> INR n * a < sum_upto n f < INR n * b).
Proof.
  induction n as [|n IH]; intros H; [split; [unfold sum_upto; cbn; lra|lia]|]. destruct IH as [I1 _]; [intros; apply H; lia|]. pose proof (H n ltac:(lia)). rewrite sum_upto_S, S_INR. split; intros; lra.
Qed.
Lemma grid_sum_bounds nc nz nx K a b : (0 < nc)%nat -> (0 < nz)%nat -> (0 < nx)%nat -> (forall c i j, a < K c i j < b) -> INR (nc * nz * nx) * a < grid_sum nc nz nx K < INR (nc * nz * nx) * b.
Proof.
  intros h1 h2 h3 H.
  assert (A : forall c i, INR nx * a < sum_upto nx (fun j => K c i j) < INR nx * b) by (intros c i; apply (sum_upto_bounds nx (fun j => K c i j) a b); auto).
  assert (B : forall c, INR nz * (INR nx * a) < sum_upto nz (fun i => sum_upto nx (fun j => K c i j)) < INR nz * (INR nx * b)) by (intros c; apply (sum_upto_bounds nz (fun i => sum_upto nx (fun j => K c i j))); auto).
  pose proof (proj2 (sum_upto_bounds nc _ _ _ (fun c _ => B c)) h1) as C. rewrite !mult_INR. unfold grid_sum. replace (INR nc * INR nz * INR nx * a) with (INR nc * (INR nz * (INR nx * a))) by ring. replace (INR nc * INR nz * INR nx * b) with (INR nc * (INR nz * (INR nx * b))) by ring. exact C.
Qed.
Lemma ct_pos CT : 0 < CT <= 1 -> 0 < 1 - sqrt (1 - CT) <= 1.
Proof. intros H. pose proof (sqrt_pos (1 - CT)). assert (Q : sqrt (1 - CT) < sqrt 1) by (apply sqrt_lt_1_alt; lra). rewrite sqrt_1 in Q. lra. Qed.
(** upstream of all its rotors a farm slows the flow *)
Theorem C122_upstream : forall PIb nx dx nz dz h mirror Rr CT U0 pts k p, third PIb exact3 -> 0 < Rr -> 0 < CT <= 1 -> 0 < U0 -> 0 <= dz ->
  (0 < nx)%nat -> (0 < nz)%nat -> nth_error pts k = Some p -> pz p <= - (1 / 100000000 * Rr) ->
  exists uz, farm_uz PIb nx dx nz dz h mirror Rr CT U0 pts k uz /\ - (U0 * (1 - sqrt (1 - CT)) * (INR (copies mirror * nz * nx) / 2)) < uz < 0.
Proof.
  intros PIb nx dx nz dz h mirror Rr CT U0 pts k p HT hR hC hU hd hx hz Hk Hp. eexists. split; [apply (farm_uz_at PIb nx dx nz dz h mirror Rr CT U0 pts k p); auto; lra|].
  pose proof (ct_pos CT hC) as A. assert (M : (0 < copies mirror)%nat) by (destruct mirror; cbn; lia).
  pose proof (grid_sum_bounds (copies mirror) nz nx (gk nx dx dz h Rr p) 0 (1 / 2) M hz hx (fun c i j => gk_up nx dx dz h Rr p c i j hR hd Hp)) as B.
  set (S := grid_sum _ _ _ _) in *. set (n := INR (copies mirror * nz * nx)) in *. assert (G : 0 < U0 * (1 - sqrt (1 - CT))) by (apply Rmult_lt_0_compat; lra). split.
  - assert (U0 * (1 - sqrt (1 - CT)) * S < U0 * (1 - sqrt (1 - CT)) * (n / 2)) by (apply Rmult_lt_compat_l; lra). lra.
  - assert (0 < U0 * (1 - sqrt (1 - CT)) * S) by (apply Rmult_lt_0_compat; lra). lra.
Qed.
(** further rows, and the ground, slow it more *)
Lemma grid_sum_rows nc nz m nx K : (0 < nc)%nat -> (0 < m)%nat -> (0 < nx)%nat -> (forall c i j, 0 < K c i j) -> grid_sum nc nz nx K < grid_sum nc (nz + m) nx K.
Proof.
  intros h1 h2 h3 H. 
  assert (P : forall c i, 0 < sum_upto nx (fun j => K c i j)).
  { intros c i. clear h1 h2. revert h3. induction nx as [|n IH]; intros h3; [lia|]. rewrite sum_upto_S. pose proof (H c i n). destruct n as [|n]; [unfold sum_upto; cbn; lra|]. specialize (IH ltac:(lia)). lra. }
  assert (Q : forall c, sum_upto nz (fun i => sum_upto nx (fun j => K c i j)) < sum_upto (nz + m) (fun i => sum_upto nx (fun j => K c i j))).
  { intros c. clear h1. revert h2. induction m as [|n IH]; intros h2; [lia|]. rewrite <- plus_n_Sm, sum_upto_S. pose proof (P c (nz + n)%nat). destruct n as [|n]; [rewrite Nat.add_0_r in *; lra|]. specialize (IH ltac:(lia)). lra. }
  unfold grid_sum. clear h3. revert h1. induction nc as [|n IH]; intros h1; [lia|]. rewrite !sum_upto_S. pose proof (Q n). destruct n as [|n]; [rewrite !sum_upto_0; lra|]. specialize (IH ltac:(lia)). lra.
Qed.
Theorem C122_more_rows : forall PIb nx dx nz m dz h mirror Rr CT U0 pts k p, third PIb exact3 -> 0 < Rr -> 0 < CT <= 1 -> 0 < U0 -> 0 <= dz ->
  (0 < nx)%nat -> (0 < m)%nat -> nth_error pts k = Some p -> pz p <= - (1 / 100000000 * Rr) ->
  exists uz uz', farm_uz PIb nx dx nz dz h mirror Rr CT U0 pts k uz /\ farm_uz PIb nx dx (nz + m) dz h mirror Rr CT U0 pts k uz' /\ uz' < uz.
Proof.
  intros PIb nx dx nz m dz h mirror Rr CT U0 pts k p HT hR hC hU hd hx hm Hk Hp. do 2 eexists.
  split; [apply (farm_uz_at PIb nx dx nz dz h mirror Rr CT U0 pts k p); auto; lra|]. split; [apply (farm_uz_at PIb nx dx (nz + m) dz h mirror Rr CT U0 pts k p); auto; lra|].
  pose proof (ct_pos CT hC) as A. assert (M : (0 < copies mirror)%nat) by (destruct mirror; cbn; lia). assert (G : 0 < U0 * (1 - sqrt (1 - CT))) by (apply Rmult_lt_0_compat; lra).
  pose proof (grid_sum_rows (copies mirror) nz m nx (gk nx dx dz h Rr p) M hm hx (fun c i j => proj1 (gk_up nx dx dz h Rr p c i j hR hd Hp))) as B.
  apply (Rmult_lt_compat_l (U0 * (1 - sqrt (1 - CT)))) in B; auto. lra.
Qed.
Theorem C122_ground : forall PIb nx dx nz dz h Rr CT U0 pts k p, third PIb exact3 -> 0 < Rr -> 0 < CT <= 1 -> 0 < U0 -> 0 <= dz ->
  (0 < nx)%nat -> (0 < nz)%nat -> nth_error pts k = Some p -> pz p <= - (1 / 100000000 * Rr) ->
  exists uz uz', farm_uz PIb nx dx nz dz h false Rr CT U0 pts k uz /\ farm_uz PIb nx dx nz dz h true Rr CT U0 pts k uz' /\ uz' < uz.
Proof.
  intros PIb nx dx nz dz h Rr CT U0 pts k p HT hR hC hU hd hx hz Hk Hp. do 2 eexists.
  split; [apply (farm_uz_at PIb nx dx nz dz h false Rr CT U0 pts k p); auto; lra|]. split; [apply (farm_uz_at PIb nx dx nz dz h true Rr CT U0 pts k p); auto; lra|].
  pose proof (ct_pos CT hC) as A. assert (G : 0 < U0 * (1 - sqrt (1 - CT))) by (apply Rmult_lt_0_compat; lra).
  pose proof (grid_sum_bounds 1 nz nx (fun c => gk nx dx dz h Rr p 1%nat) 0 (1 / 2) ltac:(lia) hz hx (fun c i j => gk_up nx dx dz h Rr p 1%nat i j hR hd Hp)) as B.
  assert (E : grid_sum (copies true) nz nx (gk nx dx dz h Rr p) = grid_sum (copies false) nz nx (gk nx dx dz h Rr p) + grid_sum 1 nz nx (fun c => gk nx dx dz h Rr p 1%nat)) by (unfold grid_sum, copies; rewrite !(sum_upto_S 0), (sum_upto_S 1), (sum_upto_S 0), !sum_upto_0; ring).
  rewrite E. assert (B' : 0 < grid_sum 1 nz nx (fun c => gk nx dx dz h Rr p 1%nat)) by lra. apply (Rmult_lt_compat_l (U0 * (1 - sqrt (1 - CT)))) in B'; auto. rewrite Rmult_0_r in B'. lra.
Qed.

(** ** The numbers of the articles (Task8, Task9) *)
Definition th (CT Rr zT : R) : R := 1 - (1 - sqrt (1 - CT)) * (1 / 2 * (1 + zT / sqrt (Rr * Rr + zT * zT))).
Lemma th_X CT Rr zT : 0 < Rr -> CT <= 1 -> u25D_th (N := XN) (Fin CT) (Fin Rr) (Fin zT) = Fin (th CT Rr zT).
Proof.
  intros hR hC. assert (S : 0 < sqrt (Rr * Rr + zT * zT)) by (apply sqrt_lt_R0; pose proof (Rsq_lt Rr ltac:(lra)); pose proof (Rsq_pos zT); lra).
  unfold u25D_th. xn. rewrite !xsqrt_fin by (try lra; pose proof (Rsq_lt Rr ltac:(lra)); pose proof (Rsq_pos zT); lra). xn. rewrite xdiv_fin by lra. xn. unfold th. f_equal. field. lra.
Qed.
Lemma ratio_b Rr z : 0 < Rr -> z < 0 -> -1 < z / sqrt (Rr * Rr + z * z) < 0.
Proof.
  intros hR hz. assert (P1 : 0 < Rr * Rr) by (apply Rmult_lt_0_compat; auto). pose proof (Rsq_pos z) as P2. assert (S : 0 < sqrt (Rr * Rr + z * z)) by (apply sqrt_lt_R0; lra).
  assert (L : - z < sqrt (Rr * Rr + z * z)). { rewrite <- (sqrt_square (- z)) by lra. apply sqrt_lt_1_alt. nra. }
  split.
  - apply (Rmult_lt_reg_r (sqrt (Rr * Rr + z * z))); auto. replace (z / sqrt (Rr * Rr + z * z) * sqrt (Rr * Rr + z * z)) with z by (field; lra). lra.
  - apply (Rmult_lt_reg_r (sqrt (Rr * Rr + z * z))); auto. replace (z / sqrt (Rr * Rr + z * z) * sqrt (Rr * Rr + z * z)) with z by (field; lra). lra.
Qed.
Lemma th_b CT Rr z : 0 < Rr -> 0 < CT <= 1 -> z < 0 -> 1 / 2 < th CT Rr z.
Proof.
  intros hR hC hz. pose proof (ct_pos CT hC) as A. pose proof (ratio_b Rr z hR hz) as B. unfold th. set (a := 1 - sqrt (1 - CT)) in *. set (b := z / _) in *. nra.
Qed.
Lemma vuz_X PIb y zT Rr CT U0 nx xS nz zS h mirror : third PIb exact3 -> 0 < Rr -> CT <= 1 -> U0 <> 0 ->
  vuz_wf (N := XN) PIb (Fin y) (Fin zT) (Fin Rr) (Fin CT) (Fin U0) nx (Fin xS) nz (Fin zS) (Fin h) mirror =
    Ok (Fin (1 - (1 - sqrt (1 - CT)) * grid_sum (copies mirror) nz nx (gk nx xS zS h Rr (0, y, zT)))).
Proof.
  intros HT hR hC hU. destruct (farm_field PIb nx xS nz zS h mirror Rr CT U0 [(0, y, zT)] HT hR hC) as (us & E & L & H). destruct (H 0%nat (0, y, zT) eq_refl) as (ux & uy & Q).
  destruct us as [|u us]; [discriminate|]. cbn in Q. injection Q as ->. unfold vuz_wf. refine (eq_trans (f_equal (fun w => bind w _) E) _). cbn [bind map].
  unfold xv at 1. cbn [px py pz fst snd]. xn. rewrite xdiv_fin by auto. do 2 f_equal. unfold px, py, pz. cbn [fst snd]. field. auto.
Qed.
Lemma sum_ge_term n (f : nat -> R) j : (forall i, 0 < f i) -> (j < n)%nat -> f j <= sum_upto n f /\ ((1 < n)%nat -> f j < sum_upto n f).
Proof.
  intros H. assert (NN : forall n, 0 <= sum_upto n f /\ ((0 < n)%nat -> 0 < sum_upto n f)).
  { induction n0 as [|n0 IH]; [rewrite sum_upto_0; split; [lra|lia]|]. rewrite sum_upto_S. pose proof (H n0). destruct IH. split; intros; lra. }
  induction n as [|n IH]; intros Hj; [lia|]. rewrite sum_upto_S. destruct (Nat.eq_dec j n) as [->|NE].
  - destruct (NN n) as [N1 N2]. split; [lra|]. intros Hn. specialize (N2 ltac:(lia)). lra.
  - destruct (IH ltac:(lia)) as [I1 I2]. pose proof (H n). split; intros; lra.
Qed.
Lemma centre_k nx S h Rr zT : 0 < Rr -> zT <= - (1 / 100000000 * Rr) -> gk nx S S h Rr (0, h, zT) 0 0 (nx / 2) = 1 / 2 * (1 + zT / sqrt (Rr * Rr + zT * zT)).
Proof.
  intros hR hz. unfold gk, grid_pos. cbn [Nat.eqb]. rewrite Z.sub_diag. unfold sub3, px, py, pz. cbn [fst snd Z.of_nat]. rewrite !Rmult_0_l, !Rminus_0_r, Rminus_eq_0.
  unfold kr, rho, px, py, pz. cbn [fst snd]. replace (0 * 0 + 0 * 0) with 0 by ring. rewrite sqrt_0. destruct (rimb_spec Rr 0 zT) as [[Z _]|_].
  - exfalso. rewrite Rminus_0_l, Rabs_Ropp, Rabs_right in Z by lra. replace (Rr / Rr) with 1 in Z by (field; lra). lra.
  - assert (RX : rax Rr 0 = 0) by (unfold rax; destruct (axisb Rr 0); reflexivity). rewrite RX. unfold kz. destruct (axis_val 1 Rr zT hR) as (_ & -> & _). rewrite (Rplus_comm (zT * zT)). reflexivity.
Qed.
Lemma grid_rest nx nz S h Rr zT : 0 < Rr -> 0 <= S -> (0 < nx)%nat -> (0 < nz)%nat -> zT <= - (1 / 100000000 * Rr) ->
  let G := grid_sum 1 nz nx (gk nx S S h Rr (0, h, zT)) in let k0 := 1 / 2 * (1 + zT / sqrt (Rr * Rr + zT * zT)) in
  k0 <= G /\ (nx = 1%nat /\ nz = 1%nat -> G = k0) /\ ((1 < nx * nz)%nat -> k0 < G).
Proof.
  intros hR hS hx hz hT. cbv zeta. rewrite <- (centre_k nx S h Rr zT hR hT). set (K := gk nx S S h Rr (0, h, zT)).
  assert (HK : forall c i j, 0 < K c i j) by (intros; apply gk_up; auto).
  assert (P : forall i, 0 < sum_upto nx (fun j => K 0%nat i j)). { intros i. apply Rlt_le_trans with (K 0%nat i 0%nat); auto. apply (sum_ge_term nx (fun j => K 0%nat i j) 0); auto. }
  assert (J : (nx / 2 < nx)%nat) by (apply Nat.div_lt; lia).
  destruct (sum_ge_term nx (fun j => K 0%nat 0%nat j) (nx / 2) (fun j => HK 0%nat 0%nat j) J) as [A1 A2].
  destruct (sum_ge_term nz (fun i => sum_upto nx (fun j => K 0%nat i j)) 0 P hz) as [B1 B2].
  assert (E : grid_sum 1 nz nx K = sum_upto nz (fun i => sum_upto nx (fun j => K 0%nat i j))) by (unfold grid_sum; rewrite sum_upto_S, sum_upto_0; ring).
  rewrite E. split; [lra|]. split.
  - intros [-> ->]. rewrite !sum_upto_S, !sum_upto_0. cbn [Nat.div Nat.divmod fst]. ring.
  - intros Hn. destruct (Nat.eq_dec nx 1) as [E1|E1]; [|specialize (A2 ltac:(lia)); lra]. specialize (B2 ltac:(nia)). lra.
Qed.
(** Task8: the reduction plotted is the blockage by all the turbines but the one downstream of the point: 0 for a single turbine
    and positive for every other farm *)
Theorem C122_spacing_study : forall PIb zT Rr CT U0 nx nz S, third PIb exact3 -> 0 < Rr -> 0 < CT <= 1 -> 0 < U0 -> 0 <= S -> (0 < nx)%nat -> (0 < nz)%nat -> zT <= - (1 / 100000000 * Rr) ->
  exists q, spacing_pct (N := XN) PIb (Fin zT) (Fin Rr) (Fin CT) (Fin U0) nx nz (Fin S) = Ok (Fin q) /\ 0 <= q <= 100 * (1 - sqrt (1 - CT)) * INR (nx * nz) /\
    (q = 0 <-> nx = 1%nat /\ nz = 1%nat).
Proof.
  intros PIb zT Rr CT U0 nx nz S HT hR hC hU hS hx hz hT. assert (z0 : zT < 0) by lra.
  pose proof (th_b CT Rr zT hR hC z0) as HB. pose proof (ct_pos CT hC) as A.
  destruct (grid_rest nx nz S 0 Rr zT hR hS hx hz hT) as (G1 & G2 & G3). 
  pose proof (grid_sum_bounds 1 nz nx (gk nx S S 0 Rr (0, 0, zT)) 0 (1 / 2) ltac:(lia) hz hx (fun c i j => gk_up nx S S 0 Rr (0, 0, zT) c i j hR hS hT)) as GB.
  replace (1 * nz * nx)%nat with (nx * nz)%nat in GB by ring.
  unfold spacing_pct. change (nZ XN 0) with (Fin 0). rewrite vuz_X by (auto; lra). cbn [bind]. rewrite th_X by lra. change (copies false) with 1%nat. set (G := grid_sum 1 nz nx _) in *. set (a := 1 - sqrt (1 - CT)) in *.
  xn. rewrite xdiv_fin by lra. xn. eexists. split; [reflexivity|].
  pose proof (ratio_b Rr zT hR z0) as RB. set (k0 := 1 / 2 * (1 + zT / sqrt (Rr * Rr + zT * zT))) in *. assert (K0 : 0 < k0 < 1 / 2) by (unfold k0; lra).
  assert (ET : th CT Rr zT = 1 - a * k0) by reflexivity. set (t := th CT Rr zT) in *.
  assert (EQ : (1 - (1 - a * G) / t) * 100 = 100 * a * ((G - k0) / t)) by (rewrite ET; field; rewrite <- ET; lra). rewrite EQ.
  assert (I0 : 0 < / t) by (apply Rinv_0_lt_compat; lra). assert (I1 : / t < 2). { apply (Rmult_lt_reg_r t); [lra|]. rewrite Rinv_l by lra. lra. }
  assert (F1 : 0 <= (G - k0) / t) by (apply Rmult_le_pos; lra). assert (F2 : (G - k0) / t <= INR (nx * nz)). { unfold Rdiv. apply Rle_trans with ((G - k0) * 2); [apply Rmult_le_compat_l; lra|lra]. }
  split; [split|split].
  - apply Rmult_le_pos; lra.
  - apply Rmult_le_compat_l; lra.
  - intros Z. assert (Z' : (G - k0) / t = 0). { apply Rmult_integral in Z. destruct Z as [Z|Z]; [lra|exact Z]. } assert (G - k0 = 0). { replace (G - k0) with ((G - k0) / t * t) by (field; lra). rewrite Z'. ring. }
    destruct (Nat.lt_ge_cases 1 (nx * nz)) as [Q|Q]; [specialize (G3 Q); lra|nia].
  - intros Q. rewrite (G2 Q). replace ((k0 - k0) / t) with 0 by (field; lra). ring.
Qed.
(** Task9: the ground always adds to the blockage, and the two studies are consistent: what the spacing study with ground shows is what the
    study without ground shows plus the ground effect *)
Theorem C122_ground_study : forall PIb zT Rr CT U0 nx nz S HH, third PIb exact3 -> 0 < Rr -> 0 < CT <= 1 -> 0 < U0 -> 0 <= S -> (0 < nx)%nat -> (0 < nz)%nat -> zT <= - (1 / 100000000 * Rr) ->
  exists q g s, spacing_pct (N := XN) PIb (Fin zT) (Fin Rr) (Fin CT) (Fin U0) nx nz (Fin S) = Ok (Fin q) /\
    ground_pct (N := XN) PIb (Fin zT) (Fin Rr) (Fin CT) (Fin U0) nx nz (Fin S) (Fin HH) = Ok (Fin g) /\
    spacing_ground_pct (N := XN) PIb (Fin zT) (Fin Rr) (Fin CT) (Fin U0) nx nz (Fin S) (Fin HH) = Ok (Fin s) /\ 0 < g /\ s = q + g.
Proof.
  intros PIb zT Rr CT U0 nx nz S HH HT hR hC hU hS hx hz hT. assert (z0 : zT < 0) by lra.
  pose proof (th_b CT Rr zT hR hC z0) as HB. pose proof (ct_pos CT hC) as A.
  pose proof (grid_sum_bounds 1 nz nx (fun c => gk nx S S HH Rr (0, HH, zT) 1%nat) 0 (1 / 2) ltac:(lia) hz hx (fun c i j => gk_up nx S S HH Rr (0, HH, zT) 1%nat i j hR hS hT)) as B.
  assert (E : grid_sum (copies true) nz nx (gk nx S S HH Rr (0, HH, zT)) = grid_sum (copies false) nz nx (gk nx S S HH Rr (0, HH, zT)) + grid_sum 1 nz nx (fun c => gk nx S S HH Rr (0, HH, zT) 1%nat)) by (unfold grid_sum, copies; rewrite !(sum_upto_S 0), (sum_upto_S 1), (sum_upto_S 0), !sum_upto_0; ring).
  assert (T : grid_sum (copies false) nz nx (gk nx S S HH Rr (0, HH, zT)) = grid_sum (copies false) nz nx (gk nx S S 0 Rr (0, 0, zT))).
  { unfold grid_sum. apply sum_upto_ext. intros c Hc. apply sum_upto_ext. intros i _. apply sum_upto_ext. intros j _. unfold copies in Hc. assert (c = 0%nat) by lia. subst c.
    unfold gk, grid_pos. cbn [Nat.eqb]. f_equal. unfold sub3, px, py, pz. cbn [fst snd]. rewrite !Rminus_eq_0. reflexivity. }
  unfold spacing_pct, ground_pct, spacing_ground_pct. change (nZ XN 0) with (Fin 0). rewrite !vuz_X by (auto; lra). cbn [bind]. rewrite th_X by lra. rewrite E, T. set (G := grid_sum (copies false) nz nx _) in *. set (M := grid_sum 1 nz nx _) in *. set (a := 1 - sqrt (1 - CT)) in *. set (t := th CT Rr zT) in *.
  xn. rewrite !xdiv_fin by lra. xn. do 3 eexists. split; [reflexivity|]. split; [reflexivity|]. split; [reflexivity|].
  assert (I0 : 0 < / t) by (apply Rinv_0_lt_compat; lra). split.
  - match goal with |- 0 < ?e => replace e with (100 * (a * M * / t)) by (field; lra) end. apply Rmult_lt_0_compat; [lra|]. apply Rmult_lt_0_compat; auto. apply Rmult_lt_0_compat; lra.
  - field. lra.
Qed.
Example C122_case : third PIexact exact3 /\ (exists q, spacing_pct (N := XN) PIexact (Fin (-250)) (Fin 50) (Fin (4 / 10)) (Fin 7) 5 5 (Fin 600) = Ok (Fin q) /\ 0 < q) /\
  exists uz, farm_uz PIexact 3 500 2 600 75 true 50 (8 / 10) 7 [(10, 20, -100)] 0 uz /\ uz < 0.
Proof.
  split; [exact C54_exact_exists|]. split.
  - destruct (C122_spacing_study PIexact (-250) 50 (4 / 10) 7 5 5 600) as (q & E & (B & _) & Z); try lra; try lia; [exact C54_exact_exists|]. exists q. split; [exact E|]. destruct B as [B|B]; auto. symmetry in B. apply Z in B. lia.
  - destruct (C122_upstream PIexact 3 500 2 600 75 true 50 (8 / 10) 7 [(10, 20, -100)] 0 (10, 20, -100)) as (uz & E & _ & B); try lra; try lia; [exact C54_exact_exists|reflexivity|unfold pz; cbn; lra|]. exists uz. auto.
Qed.
