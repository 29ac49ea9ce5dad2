(** * C117, C118: the look-up of reference data (wiz/article_blockage/helper_functions.py) *)
From Coq Require Import ZArith QArith Qround Qabs String Ascii List Bool Lia Lqa.
From Coq Require Import Floats.SpecFloat DecimalString DecimalN DecimalPos DecimalFacts.
From Verif Require Import Num M_Tictoc M_Keys P_IO.
Import ListNotations.
Local Open Scope string_scope.
Local Open Scope Z_scope.
Local Notation len := List.length.

(** ** Strings *)

Fixpoint free (c : ascii) (s : string) : Prop :=
  match s with EmptyString => True | String a r => a <> c /\ free c r end.

Lemma app_assoc_s a b c : ((a ++ b) ++ c)%string = (a ++ (b ++ c))%string.
Proof. induction a as [|x a IH]; cbn; [reflexivity|now rewrite IH]. Qed.

Lemma free_app c a b : free c a -> free c b -> free c (a ++ b).
Proof. induction a as [|x a IH]; cbn; tauto. Qed.

Lemma free_rep c d n : d <> c -> free c (rep d n).
Proof. induction n; cbn; tauto. Qed.

Lemma sep_inj c a b a' b' : free c a -> free c a' ->
  (a ++ String c b = a' ++ String c b')%string -> a = a' /\ b = b'.
Proof.
  revert a'. induction a as [|x a IH]; intros [|y a'] Ha Ha' E; cbn in *.
  - injection E as E; now subst.
  - injection E as E _. now destruct Ha' as [Ha' _]; elim Ha'.
  - injection E as E _. now destruct Ha as [Ha _]; elim Ha.
  - injection E as Exy E. destruct (IH a' (proj2 Ha) (proj2 Ha') E). now subst.
Qed.

Lemma app_inj_l a b b' : (a ++ b = a ++ b')%string -> b = b'.
Proof. induction a; cbn; [tauto|]. intros E; injection E as E; auto. Qed.

Lemma app_inj_r a a' b : (a ++ b = a' ++ b)%string -> a = a'.
Proof.
  revert a'. induction a as [|x a IH]; intros [|y a'] E; cbn in E.
  - reflexivity.
  - exfalso. apply (f_equal String.length) in E. cbn in E. rewrite len_app in E. lia.
  - exfalso. apply (f_equal String.length) in E. cbn in E. rewrite len_app in E. lia.
  - injection E as E1 E2. f_equal; auto.
Qed.

(** ** Decimal numbers *)

Definition read (s : string) : option Z :=
  match NilZero.uint_of_string s with Some d => Some (Z.of_N (N.of_uint d)) | None => None end.

Lemma to_uint_nonnil n : N.to_uint n <> Decimal.Nil.
Proof. destruct n; cbn; [discriminate|]; apply DecimalPos.Unsigned.to_uint_nonnil. Qed.

Lemma read_dec z : 0 <= z -> read (dec z) = Some z.
Proof.
  intros Hz. unfold read, dec. rewrite NilZero.usu by apply to_uint_nonnil.
  rewrite DecimalN.Unsigned.of_to. now rewrite Z2N.id.
Qed.

Lemma read_zero s z : read s = Some z -> read (String "0" s) = Some z.
Proof.
  unfold read. destruct s as [|c s]; [discriminate|].
  cbn. intros H. destruct (uint_of_char c (NilEmpty.uint_of_string s)) eqn:E; [|discriminate]. cbn. exact H.
Qed.

Lemma read_rep n s z : read s = Some z -> read (rep "0" n ++ s) = Some z.
Proof. intros H; induction n as [|n IH]; cbn [rep append]; [exact H|now apply read_zero]. Qed.

Lemma read_d02 z : 0 <= z -> read (d02 z) = Some z.
Proof. intros. unfold d02, lpad. now apply read_rep, read_dec. Qed.

Definition digit (c : ascii) : Prop := In c (list_ascii_of_string "0123456789").
Fixpoint digits (s : string) : Prop := match s with EmptyString => True | String a r => digit a /\ digits r end.

Lemma char_digit c d u : uint_of_char c d = Some u -> digit c /\ d <> None.
Proof.
  destruct d as [d|]; [|destruct c as [[] [] [] [] [] [] [] []]; discriminate].
  intros H. split; [|discriminate].
  destruct c as [[] [] [] [] [] [] [] []]; try discriminate H; cbn; tauto.
Qed.

Lemma read_digits s z : read s = Some z -> digits s.
Proof.
  unfold read. destruct s as [|c s]; [discriminate|]. intros H.
  assert (E : NilEmpty.uint_of_string (String c s) <> None) by (cbn in *; destruct uint_of_char; [discriminate|discriminate H]).
  clear H. revert E. generalize (String c s). clear. intros s; induction s as [|c s IH]; [intros; exact I|].
  cbn [NilEmpty.uint_of_string]. intros E.
  destruct (uint_of_char c (NilEmpty.uint_of_string s)) eqn:F; [|now elim E].
  apply char_digit in F. cbn. split; [tauto|apply IH; tauto].
Qed.

Lemma digits_free c s : ~ digit c -> digits s -> free c s.
Proof. intros Hc. induction s as [|a s IH]; [intros; exact I|]. intros [H1 H2]; split; [intros ->; contradiction|auto]. Qed.

Definition read_s (s : string) : option Z :=
  match s with String "-" r => option_map Z.opp (read r) | _ => read s end.

Lemma read_s_nonneg s z : read s = Some z -> read_s s = Some z.
Proof.
  intros H. destruct s as [|c s]; [exact H|].
  assert (D := read_digits _ _ H). destruct D as [D _].
  destruct c as [[] [] [] [] [] [] [] []]; try exact H; exfalso; cbn in D; intuition discriminate.
Qed.

Lemma read_sdec z : read_s (sdec z) = Some z.
Proof.
  unfold sdec. destruct (z <? 0) eqn:E.
  - apply Z.ltb_lt in E. cbn [append]. unfold read_s. rewrite read_dec by lia. cbn. f_equal; lia.
  - apply Z.ltb_ge in E. now apply read_s_nonneg, read_dec.
Qed.

Lemma read_sd02 z : read_s (sd02 z) = Some z.
Proof.
  unfold sd02. destruct (z <? 0) eqn:E.
  - apply Z.ltb_lt in E. cbn [append]. unfold read_s. rewrite read_dec by lia. cbn. f_equal; lia.
  - apply Z.ltb_ge in E. now apply read_s_nonneg, read_d02.
Qed.

Lemma sdec_inj a b : sdec a = sdec b -> a = b.
Proof. intros E. assert (Some a = Some b) by (rewrite <- (read_sdec a), <- (read_sdec b); congruence). congruence. Qed.
Lemma sd02_inj a b : sd02 a = sd02 b -> a = b.
Proof. intros E. assert (Some a = Some b) by (rewrite <- (read_sd02 a), <- (read_sd02 b); congruence). congruence. Qed.

Ltac nodigit := cbn; intuition discriminate.

Lemma free_dec c z : ~ digit c -> 0 <= z -> free c (dec z).
Proof. intros. eapply digits_free; [assumption|]. eapply read_digits, read_dec; assumption. Qed.
Lemma free_d02 c z : ~ digit c -> 0 <= z -> free c (d02 z).
Proof. intros. eapply digits_free; [assumption|]. eapply read_digits, read_d02; assumption. Qed.
Lemma free_sdec c z : ~ digit c -> "-"%char <> c -> free c (sdec z).
Proof.
  intros. unfold sdec. destruct (z <? 0) eqn:E; [apply Z.ltb_lt in E; cbn; split; [assumption|]|apply Z.ltb_ge in E];
    apply free_dec; (assumption || lia).
Qed.
Lemma free_sd02 c z : ~ digit c -> "-"%char <> c -> free c (sd02 z).
Proof.
  intros. unfold sd02. destruct (z <? 0) eqn:E; [apply Z.ltb_lt in E; cbn; split; [assumption|]; apply free_dec
   |apply Z.ltb_ge in E; apply free_d02]; (assumption || lia).
Qed.

Lemma plane_base_inj a h l y a' h' l' y' t t' :
  free "_" t -> free "_" t' ->
  (plane_base a h l y ++ String "_" t = plane_base a' h' l' y' ++ String "_" t')%string ->
  a = a' /\ h = h' /\ l = l' /\ y = y' /\ t = t'.
Proof.
  intros Ht Ht' E. unfold plane_base in E. rewrite !app_assoc_s in E. cbn [append] in E.
  repeat match type of E with String _ _ = String _ _ => injection E as E end.
  assert (F : forall z, free "_" (sdec z)) by (intros; apply free_sdec; nodigit).
  assert (G : forall z, free "_" (sd02 z)) by (intros; apply free_sd02; nodigit).
  apply sep_inj in E; auto. destruct E as [E1 E].
  repeat match type of E with String _ _ = String _ _ => injection E as E end.
  apply sep_inj in E; auto. destruct E as [E2 E].
  repeat match type of E with String _ _ = String _ _ => injection E as E end.
  apply sep_inj in E; auto. destruct E as [E3 E].
  repeat match type of E with String _ _ = String _ _ => injection E as E end.
  apply sep_inj in E; auto. destruct E as [E4 E].
  repeat split; auto using sdec_inj, sd02_inj.
Qed.

(** ** C117: loadPlane *)

(** The two arithmetics the look-up is studied in *)
Definition arith (A : fl) : Prop := A = exact \/ A = b64.

(** "the wind is free of ground effect" (HH above 9) and "the loading is uniform" (Lambda above 20) *)
Definition uniform (L : lam) : Prop :=
  match L with LInt z => 20 < z | LFloat q => (20 < q)%Q | LInf => True end.
(** The yaw angle in whole degrees *)
Definition degrees (y : yaw) (n : Z) : Prop := y = YInt n.

Lemma arith99 A : arith A -> f_gt9 A (f_99 A) = true.
Proof. intros [-> | ->]; vm_compute; reflexivity. Qed.

Lemma lam_key_uniform L l : lam_key L = Ok l -> (l = 99 <-> uniform L).
Proof.
  destruct L as [z|q|]; cbn.
  - intros H; injection H as <-. destruct (20 <? z) eqn:E; [apply Z.ltb_lt in E; split; auto|apply Z.ltb_ge in E]. split; lia.
  - destruct (Qlt_b 20 q) eqn:E; [|discriminate]. intros H; injection H as <-. apply Qlt_b_true in E. split; auto.
  - intros H; injection H as <-. split; auto.
Qed.
Lemma lam_key_six L l : lam_key L = Ok l -> (l = 6 <-> L = LInt 6).
Proof.
  destruct L as [z|q|]; cbn.
  - intros H; injection H as <-. destruct (20 <? z) eqn:E; [apply Z.ltb_lt in E|apply Z.ltb_ge in E].
    + split; [discriminate|]. intros H; injection H as ->; lia.
    + split; [intros ->; auto|]. intros H; injection H as ->; auto.
  - destruct (Qlt_b 20 q); [|discriminate]. intros H; injection H as <-. split; discriminate.
  - intros H; injection H as <-. split; discriminate.
Qed.

(** *** Which cases exist: "None" is returned exactly for those that do not. *)
Definition no_data (A : fl) (HH : A) (L : lam) (Horizontal : bool) (Y : yaw) : Prop :=
  if f_gt9 A HH then Horizontal = false \/ (Y <> YInt 0 /\ ~ uniform L)
  else Y <> YInt 0 \/ (L <> LInt 6 /\ ~ uniform L).

Lemma none_iff A CT HH L Horizontal Y r : arith A ->
  loadPlane A CT HH L Horizontal Y = Ok r -> (r = None <-> no_data A HH L Horizontal Y).
Proof.
  intros HA. unfold loadPlane, no_data.
  destruct (f_int A (f_mul A CT 100)) as [ct|]; [|discriminate]. cbn [bind].
  destruct (f_int A _) as [hh|]; [|discriminate]. cbn [bind].
  destruct (lam_key L) as [l|] eqn:EL; [|discriminate]. cbn [bind].
  destruct (yaw_key Y) as [y|] eqn:EY; [|discriminate]. cbn [bind].
  pose proof (lam_key_uniform _ _ EL) as U. pose proof (lam_key_six _ _ EL) as S6.
  assert (Yz : y = 0 <-> Y = YInt 0).
  { destruct Y as [z|]; [|discriminate EY]. injection EY as <-. split; [intros; f_equal; lia|intros H; injection H as ->; auto]. }
  assert (E99 := arith99 A HA).
  destruct (f_gt9 A HH) eqn:EH; [rewrite E99|rewrite EH].
  - destruct Horizontal; cbn [negb].
    + destruct (Z.ltb_spec 0 (Z.abs y)) as [P|P]; cbn [andb].
      * destruct (Z.eqb_spec l 99) as [Q|Q]; cbn [negb]; intros H; injection H as <-.
        -- split; [discriminate|]. intros [H|[_ H]]; [discriminate|tauto].
        -- split; auto. intros _. right. split; [intros H; apply Yz in H; lia|tauto].
      * intros H; injection H as <-. split; [discriminate|]. intros [H|[H _]]; [discriminate|]. elim H. apply Yz. lia.
    + intros H; injection H as <-. split; auto.
  - destruct (Z.eqb_spec y 0) as [P|P]; cbn [negb].
    + destruct (Z.eqb_spec l 6) as [P6|P6]; [|destruct (Z.eqb_spec l 99) as [Q|Q]]; cbn [orb negb]; intros H; injection H as <-.
      * split; [discriminate|]. intros [H|[H _]]; tauto.
      * split; [discriminate|]. intros [H|[_ H]]; tauto.
      * split; auto. intros _. right. tauto.
    + intros H; injection H as <-. split; auto. intros _. left. tauto.
Qed.

(** A request either raises (a Lambda of at most 20 or a yaw given as a float; in binary64 also an infinity or a NaN),
    or answers; it answers None exactly for the cases without data. *)
Theorem C117_available : forall (A : fl) (CT HH : A) (L : lam) (Horizontal : bool) (Y : yaw),
  arith A ->
  (forall r, loadPlane A CT HH L Horizontal Y = Ok r -> (r = None <-> no_data A HH L Horizontal Y)) /\
  ((exists q, L = LFloat q /\ ~ (20 < q)%Q) \/ (exists q, Y = YFloat q) ->
   exists e, loadPlane A CT HH L Horizontal Y = Err e).
Proof.
  intros A CT HH L Horizontal Y HA. split; [intros r; now apply none_iff|].
  intros H. unfold loadPlane.
  destruct (f_int A (f_mul A CT 100)) as [ct|]; [|cbn; eauto]. cbn [bind].
  destruct (f_int A _) as [hh|]; [|cbn; eauto]. cbn [bind].
  destruct H as [(q & -> & Hq)|(q & ->)].
  - cbn [lam_key]. destruct (Qlt_b 20 q) eqn:E; [apply Qlt_b_true in E; tauto|]. cbn; eauto.
  - destruct (lam_key L); cbn; eauto.
Qed.

(** *** Distinct cases never share data, up to int(CT*100) and int(HH*10). *)

(** The hub height that counts: everything above 9 is one case *)
Definition capped (A : fl) (HH : A) : A := if f_gt9 A HH then f_99 A else HH.

Lemma base_end a h l y a' h' l' y' :
  plane_base a h l y = plane_base a' h' l' y' -> a = a' /\ h = h' /\ l = l' /\ y = y'.
Proof.
  intros E. apply (f_equal (fun s => s ++ String "_" "")%string) in E.
  apply plane_base_inj in E; cbn; tauto.
Qed.

Lemma mat_inj a b : MatFile a = MatFile b -> a = b.
Proof. congruence. Qed.
Lemma csv_inj g f g' f' : CsvFiles g f = CsvFiles g' f' -> f = f'.
Proof. congruence. Qed.
Lemma fields_inj b b' : csv_fields b = csv_fields b' -> b = b'.
Proof.
  intros E. apply (f_equal (@hd string "")) in E.
  change (("../data/Ground/" ++ (b ++ "_U.csv")) = ("../data/Ground/" ++ (b' ++ "_U.csv")))%string in E.
  apply app_inj_l in E. exact (app_inj_r _ _ _ E).
Qed.

Lemma loaded A CT HH L Horizontal Y p : arith A -> loadPlane A CT HH L Horizontal Y = Ok (Some p) ->
  exists ct hh l z, f_int A (f_mul A CT 100) = Ok ct /\ f_int A (f_mul A (capped A HH) 10) = Ok hh /\
    lam_key L = Ok l /\ Y = YInt z /\
    p = {| pl_src := if f_gt9 A HH then MatFile ("../data/AD_" ++ plane_base ct hh l (- z) ++ ".mat")
                     else CsvFiles (csv_grid A Horizontal HH) (csv_fields (plane_base ct hh l (- z) ++ "_" ++ sDir Horizontal));
           pl_CT := CT; pl_HH := capped A HH; pl_Lambda := l; pl_Horizontal := Horizontal; pl_Yaw := z |} /\
    (f_gt9 A HH = true -> Horizontal = true).
Proof.
  intros HA. unfold loadPlane, capped. assert (E99 := arith99 A HA).
  destruct (f_int A (f_mul A CT 100)) as [ct|]; [|discriminate]. cbn [bind].
  destruct (f_int A _) as [hh|]; [|discriminate]. cbn [bind].
  destruct (lam_key L) as [l|] eqn:EL; [|discriminate]. cbn [bind].
  destruct Y as [z|]; [|discriminate]. cbn [yaw_key bind].
  rewrite Z.opp_involutive.
  destruct (f_gt9 A HH) eqn:EH; [rewrite E99|rewrite EH].
  - destruct Horizontal; cbn [negb]; [|discriminate]. destruct (_ && _); [discriminate|].
    intros H; injection H as <-. exists ct, hh, l, z. repeat split; auto.
  - destruct (negb _); [discriminate|]. destruct (negb _); [discriminate|].
    intros H; injection H as <-. exists ct, hh, l, z. repeat split; auto. discriminate.
Qed.

Theorem C117_distinct_cases : forall (A : fl) (CT HH CT' HH' : A) (L L' : lam) (Hz Hz' : bool) (Y Y' : yaw) (p p' : plane A),
  arith A ->
  loadPlane A CT HH L Hz Y = Ok (Some p) -> loadPlane A CT' HH' L' Hz' Y' = Ok (Some p') ->
  pl_src p = pl_src p' ->
  f_int A (f_mul A CT 100) = f_int A (f_mul A CT' 100) /\
  f_int A (f_mul A (capped A HH) 10) = f_int A (f_mul A (capped A HH') 10) /\
  f_gt9 A HH = f_gt9 A HH' /\
  ((uniform L /\ uniform L') \/ L = L') /\ Y = Y' /\ Hz = Hz'.
Proof.
  intros A CT HH CT' HH' L L' Hz Hz' Y Y' p p' HA E E' ES.
  destruct (loaded _ _ _ _ _ _ _ HA E) as (ct & hh & l & z & E1 & E2 & E3 & -> & -> & E5).
  destruct (loaded _ _ _ _ _ _ _ HA E') as (ct' & hh' & l' & z' & E1' & E2' & E3' & -> & -> & E5').
  rewrite E1, E1', E2, E2'. cbn [pl_src] in ES.
  assert (LL : l = l' -> (uniform L /\ uniform L') \/ L = L').
  { intros <-. pose proof (lam_key_uniform _ _ E3). pose proof (lam_key_uniform _ _ E3').
    destruct (Z.eq_dec l 99) as [K|K]; [left; tauto|right].
    destruct L as [a|a|]; cbn in E3; [|destruct (Qlt_b 20 a); [|discriminate]; injection E3 as <-; congruence|injection E3 as <-; congruence].
    destruct L' as [b|b|]; cbn in E3'; [|destruct (Qlt_b 20 b); [|discriminate]; injection E3' as <-; congruence|injection E3' as <-; congruence].
    injection E3 as <-. injection E3' as E3'. f_equal.
    destruct (20 <? a), (20 <? b); congruence. }
  destruct (f_gt9 A HH) eqn:EH, (f_gt9 A HH') eqn:EH'; try discriminate.
  - apply mat_inj in ES. apply app_inj_l in ES. apply app_inj_r in ES. apply base_end in ES.
    destruct ES as (-> & -> & Hl & Hz0). rewrite (E5 eq_refl), (E5' eq_refl).
    repeat split; auto. f_equal; lia.
  - apply csv_inj, fields_inj in ES.
    change ("_" ++ sDir Hz)%string with (String "_" (sDir Hz)) in ES.
    change ("_" ++ sDir Hz')%string with (String "_" (sDir Hz')) in ES.
    apply plane_base_inj in ES; [|destruct Hz; cbn; intuition discriminate|destruct Hz'; cbn; intuition discriminate].
    destruct ES as (-> & -> & Hl & Hz0 & HD).
    repeat split; auto; [f_equal; lia|]. destruct Hz, Hz'; (reflexivity || discriminate).
Qed.

(** *** Exact arithmetic: hundredths of CT and tenths of HH are recovered, so different cases have different data. *)
Lemma quot_mul n (d : positive) k : 
  Z.quot (Qnum (Qmake n d * inject_Z k)) (Zpos (Qden (Qmake n d * inject_Z k))) = Z.quot (n * k) (Zpos d).
Proof. cbn [Qmult inject_Z Qnum Qden]. now rewrite Pos.mul_1_r. Qed.

(** The key number of CT is the number of whole hundredths below it, that of HH the number of whole tenths. *)
Theorem C117_exact_keys : forall (q : Q) (n : Z), 0 <= n ->
  (Qmake n 100 <= q)%Q -> (q < Qmake (n + 1) 100)%Q -> f_int exact (f_mul exact q 100) = Ok n.
Proof.
  intros q n Hn H1 H2. cbn. f_equal. unfold Qle, Qlt in *. cbn [Qnum Qden] in *.
  rewrite Pos.mul_1_r. set (a := Qnum q) in *. set (b := Qden q) in *.
  rewrite Z.quot_div_nonneg by nia. symmetry. apply Z.div_unique with (r := a * 100 - Zpos b * n); nia.
Qed.

Theorem C117_exact_cases : forall (n n' h h' : Z) (L L' : lam) (Hz Hz' : bool) (Y Y' : yaw) (p p' : plane exact),
  0 <= n -> 0 <= n' -> 0 <= h <= 90 -> 0 <= h' <= 90 ->
  loadPlane exact (Qmake n 100) (Qmake h 10) L Hz Y = Ok (Some p) ->
  loadPlane exact (Qmake n' 100) (Qmake h' 10) L' Hz' Y' = Ok (Some p') ->
  pl_src p = pl_src p' ->
  n = n' /\ h = h' /\ ((uniform L /\ uniform L') \/ L = L') /\ Y = Y' /\ Hz = Hz'.
Proof.
  intros n n' h h' L L' Hz Hz' Y Y' p p' Hn Hn' Hh Hh' E E' ES.
  destruct (C117_distinct_cases exact _ _ _ _ _ _ _ _ _ _ _ _ (or_introl eq_refl) E E' ES) as (A & B & C & D).
  assert (G : forall m, 0 <= m <= 90 -> f_gt9 exact (Qmake m 10) = false).
  { intros m Hm. apply Qlt_b_false. unfold Qle. cbn. lia. }
  unfold capped in B. rewrite !G in B by assumption.
  cbn [exact f_int f_mul] in A, B.
  rewrite !quot_mul in A, B.
  rewrite !Z.quot_mul in A, B by lia. split; [congruence|]. split; [congruence|exact D].
Qed.

(** *** Binary64, the arithmetic of the program. *)
Definition range (n : Z) : list Z := map Z.of_nat (seq 0 (Z.to_nat n)).
Lemma in_range n k : 0 <= k < n -> In k (range n).
Proof. intros H. unfold range. rewrite <- (Z2Nat.id k) by lia. apply in_map, in_seq. lia. Qed.

Definition ct_key (n : Z) : Z := if existsb (Z.eqb n) [29; 57; 58] then n - 1 else n.

Lemma b64_ct n : 0 <= n <= 100 -> f_int b64 (f_mul b64 (b64_lit n 100) 100) = Ok (ct_key n).
Proof.
  intros H. assert (HI := in_range 101 n ltac:(lia)). revert n HI H.
  assert (K : forallb (fun n => match f_int b64 (f_mul b64 (b64_lit n 100) 100) with Ok z => z =? ct_key n | _ => false end) (range 101) = true)
    by (vm_compute; reflexivity).
  rewrite forallb_forall in K. intros n HI _. specialize (K n HI).
  destruct (f_int b64 _); [|discriminate]. apply Z.eqb_eq in K. congruence.
Qed.
Lemma b64_hh h : 0 <= h <= 90 -> f_int b64 (f_mul b64 (b64_lit h 10) 10) = Ok h /\ f_gt9 b64 (b64_lit h 10) = false.
Proof.
  intros H. assert (HI := in_range 91 h ltac:(lia)). revert h HI H.
  assert (K : forallb (fun n => match f_int b64 (f_mul b64 (b64_lit n 10) 10) with Ok z => (z =? n) && negb (f_gt9 b64 (b64_lit n 10)) | _ => false end) (range 91) = true)
    by (vm_compute; reflexivity).
  rewrite forallb_forall in K. intros n HI _. specialize (K n HI).
  destruct (f_int b64 _); [|discriminate]. apply andb_prop in K. destruct K as [K1 K2]. apply Z.eqb_eq in K1.
  split; [congruence|]. now destruct (f_gt9 b64 _).
Qed.

(** Full claim: requests for different thrust coefficients (in hundredths, up to 1) never read the same data. *)
Definition C117_full : Prop := forall (n n' : Z) (HH : b64) (L : lam) (Hz : bool) (Y : yaw) (p p' : plane b64),
  0 <= n <= 100 -> 0 <= n' <= 100 ->
  loadPlane b64 (b64_lit n 100) HH L Hz Y = Ok (Some p) ->
  loadPlane b64 (b64_lit n' 100) HH L Hz Y = Ok (Some p') ->
  pl_src p = pl_src p' -> n = n'.

(** For every case the program is asked for (CT in hundredths up to 1; HH in tenths up to 9, or above 9), it answers,
    raises and reads files as exact arithmetic does, except that 0.29, 0.57 and 0.58 are taken for 0.28, 0.56, 0.57. *)
Definition hub (HH : b64) (HH' : Q) : Prop :=
  (exists h, 0 <= h <= 90 /\ HH = b64_lit h 10 /\ HH' = Qmake h 10) \/
  (f_gt9 b64 HH = true /\ (9 < HH')%Q).
Definition files {A} (r : result (option (plane A))) : result (option source) :=
  let* o := r in Ok (match o with Some p => Some (pl_src p) | None => None end).

Lemma b64_is2 h : 0 <= h <= 90 -> f_is2 b64 (b64_lit h 10) = f_is2 exact (Qmake h 10).
Proof.
  intros H. assert (HI := in_range 91 h ltac:(lia)). revert h HI H.
  assert (K : forallb (fun n => Bool.eqb (f_is2 b64 (b64_lit n 10)) (f_is2 exact (Qmake n 10))) (range 91) = true)
    by (vm_compute; reflexivity).
  rewrite forallb_forall in K. intros n HI _. now apply Bool.eqb_prop, K.
Qed.

Theorem C117_binary64 : forall (n : Z) (HH : b64) (HH' : Q) (L : lam) (Hz : bool) (Y : yaw),
  0 <= n <= 100 -> hub HH HH' ->
  files (loadPlane b64 (b64_lit n 100) HH L Hz Y) =
  files (loadPlane exact (Qmake (if existsb (Z.eqb n) [29; 57; 58] then n - 1 else n) 100) HH' L Hz Y).
Proof.
  intros n HH HH' L Hz Y Hn Hh. fold (ct_key n).
  assert (Ec : f_int exact (f_mul exact (Qmake (ct_key n) 100) 100) = Ok (ct_key n)).
  { cbn [exact f_int f_mul]. now rewrite quot_mul, Z.quot_mul by lia. }
  unfold loadPlane. rewrite b64_ct by assumption. rewrite Ec. cbn [bind].
  destruct Hh as [(h & Hh & -> & ->)|[G G']].
  - destruct (b64_hh h Hh) as [B1 B2].
    assert (G' : f_gt9 exact (Qmake h 10) = false) by (apply Qlt_b_false; unfold Qle; cbn; lia).
    assert (Eh : f_int exact (f_mul exact (Qmake h 10) 10) = Ok h).
    { cbn [exact f_int f_mul]. now rewrite quot_mul, Z.quot_mul by lia. }
    rewrite !B2, !G', B1, Eh. cbn [bind].
    destruct (lam_key L) as [l|]; [|reflexivity]. cbn [bind]. destruct (yaw_key Y) as [y|]; [|reflexivity]. cbn [bind].
    destruct (negb _); [reflexivity|]. destruct (negb _); [reflexivity|]. unfold files. cbn [bind pl_src].
    do 3 f_equal. unfold csv_grid. now rewrite b64_is2.
  - assert (G2 : f_gt9 exact HH' = true) by (now apply Qlt_b_true).
    rewrite G, G2.
    replace (f_int b64 (f_mul b64 (f_99 b64) 10)) with (@Ok Z 99) by (vm_compute; reflexivity).
    replace (f_int exact (f_mul exact (f_99 exact) 10)) with (@Ok Z 99) by (vm_compute; reflexivity).
    rewrite (arith99 b64 (or_intror eq_refl)), (arith99 exact (or_introl eq_refl)). cbn [bind].
    destruct (lam_key L) as [l|]; [|reflexivity]. cbn [bind]. destruct (yaw_key Y) as [y|]; [|reflexivity]. cbn [bind].
    destruct (negb _); [reflexivity|]. destruct (_ && _); reflexivity.
Qed.

(** The full claim fails: CT=0.29 reads the data of CT=0.28, and the object returned says CT=0.29. *)
Theorem C117_refuted : ~ C117_full /\
  exists p p', loadPlane b64 (b64_lit 28 100) (b64_of_Z 12) LInf true (YInt 0) = Ok (Some p) /\
    loadPlane b64 (b64_lit 29 100) (b64_of_Z 12) LInf true (YInt 0) = Ok (Some p') /\
    pl_src p = MatFile "../data/AD_CT028_HH99_Lambda99_Yaw00.mat" /\ pl_src p' = pl_src p /\ pl_CT p' = b64_lit 29 100.
Proof.
  set (pl := fun c => {| pl_src := MatFile "../data/AD_CT028_HH99_Lambda99_Yaw00.mat"; pl_CT := c : b64; pl_HH := f_99 b64;
                         pl_Lambda := 99; pl_Horizontal := true; pl_Yaw := 0 |}).
  assert (P : forall n, 0 <= n <= 100 -> ct_key n = 28 ->
    loadPlane b64 (b64_lit n 100) (b64_of_Z 12) LInf true (YInt 0) = Ok (Some (pl (b64_lit n 100)))).
  { intros n Hn Hk. unfold loadPlane. rewrite b64_ct, Hk by assumption.
    replace (f_gt9 b64 (b64_of_Z 12)) with true by (vm_compute; reflexivity).
    replace (f_int b64 (f_mul b64 (f_99 b64) 10)) with (@Ok Z 99) by (vm_compute; reflexivity).
    rewrite (arith99 b64 (or_intror eq_refl)). reflexivity. }
  assert (P1 := P 28 ltac:(lia) eq_refl). assert (P2 := P 29 ltac:(lia) eq_refl).
  split.
  - intros F.
    assert (K : 28 = 29 :> Z); [|discriminate K].
    refine (F 28 29 (b64_of_Z 12) LInf true (YInt 0) (pl (b64_lit 28 100)) (pl (b64_lit 29 100)) _ _ P1 P2 eq_refl); lia.
  - exists (pl (b64_lit 28 100)), (pl (b64_lit 29 100)). exact (conj P1 (conj P2 (conj eq_refl (conj eq_refl eq_refl)))).
Qed.

(** What holds: outside 0.29, 0.57, 0.58 the claim is true. *)
Theorem C117_binary64_cases_partial : forall (n n' : Z) (HH : b64) (L : lam) (Hz : bool) (Y : yaw) (p p' : plane b64),
  0 <= n <= 100 -> 0 <= n' <= 100 -> ~ In n [29; 57; 58] -> ~ In n' [29; 57; 58] ->
  loadPlane b64 (b64_lit n 100) HH L Hz Y = Ok (Some p) ->
  loadPlane b64 (b64_lit n' 100) HH L Hz Y = Ok (Some p') ->
  pl_src p = pl_src p' -> n = n'.
Proof.
  intros n n' HH L Hz Y p p' Hn Hn' I I' E E' ES.
  destruct (C117_distinct_cases b64 _ _ _ _ _ _ _ _ _ _ _ _ (or_intror eq_refl) E E' ES) as (A & _).
  assert (K : forall m, ~ In m [29; 57; 58] -> ct_key m = m).
  { intros m Hm. unfold ct_key. destruct (existsb (Z.eqb m) [29; 57; 58]) eqn:Q; [|reflexivity].
    apply existsb_exists in Q. destruct Q as (x & Hx & Q). apply Z.eqb_eq in Q. subst; contradiction. }
  rewrite !b64_ct, !K in A by assumption. congruence.
Qed.

(** *** OutputProj rounds instead of truncating: every CT within half a hundredth of n/100 finds the file of n. *)
Lemma round_even_near y n : (Qabs (y - inject_Z n) < Qmake 1 2)%Q -> Qround_even y = n.
Proof.
  intros H. apply Qabs_Qlt_condition in H. destruct H as [H1 H2].
  unfold Qround_even. set (f := Qfloor y).
  assert (F1 := Qfloor_le y). assert (F2 := Qlt_floor y). fold f in F1, F2.
  rewrite inject_Z_plus in F2. change (inject_Z 1) with 1%Q in F2.
  assert (f = n \/ f = n - 1) as [E|E].
  { assert (inject_Z f < inject_Z (n + 1))%Q by (rewrite inject_Z_plus; change (inject_Z 1) with 1%Q; lra).
    assert (inject_Z (n - 2) < inject_Z f)%Q by (replace (n - 2) with (n + -2) by lia; rewrite inject_Z_plus; change (inject_Z (-2)) with (-2)%Q; lra).
    rewrite <- Zlt_Qlt in *. lia. }
  - destruct (Qcompare_spec (y - inject_Z f) (Qmake 1 2)) as [C|C|C]; auto; exfalso; rewrite E in C; lra.
  - assert (E' : (inject_Z f == inject_Z n - 1)%Q) by (rewrite E; unfold Z.sub; rewrite inject_Z_plus; reflexivity).
    destruct (Qcompare_spec (y - inject_Z f) (Qmake 1 2)) as [C|C|C]; [exfalso|exfalso|lia]; rewrite E' in C; lra.
Qed.

Theorem C117_projected : 
  (forall (CT : Q) (n : Z) (suffix : string), (Qabs (CT - Qmake n 100) < Qmake 1 200)%Q ->
     proj_file exact CT suffix = Ok ("../data/ProjCorr/Layout1x1_CT0" ++ sd02 n ++ suffix ++ ".npz")%string) /\
  (forall (n : Z) (suffix : string), 0 <= n <= 100 ->
     proj_file b64 (b64_lit n 100) suffix = Ok ("../data/ProjCorr/Layout1x1_CT0" ++ sd02 n ++ suffix ++ ".npz")%string) /\
  (forall (n n' : Z) (suffix : string),
     ("../data/ProjCorr/Layout1x1_CT0" ++ sd02 n ++ suffix ++ ".npz" =
      "../data/ProjCorr/Layout1x1_CT0" ++ sd02 n' ++ suffix ++ ".npz")%string -> n = n').
Proof.
  split; [|split].
  - intros CT n suffix H. unfold proj_file. cbn [exact f_round f_mul bind].
    rewrite (round_even_near _ n); [reflexivity|].
    assert (E : (CT * inject_Z 100 - inject_Z n == (CT - Qmake n 100) * 100)%Q).
    { change (inject_Z 100) with (100)%Q. unfold Qminus. rewrite Qmult_plus_distr_l.
      apply Qplus_inj_l. unfold Qeq. cbn. lia. }
    rewrite E, Qabs_Qmult. change (Qabs 100) with (100)%Q. lra.
  - intros n suffix H. unfold proj_file.
    assert (HI := in_range 101 n ltac:(lia)).
    assert (K : forallb (fun n => match f_round b64 (f_mul b64 (b64_lit n 100) 100) with Ok z => z =? n | _ => false end) (range 101) = true)
      by (vm_compute; reflexivity).
    rewrite forallb_forall in K. specialize (K n HI). destruct (f_round b64 _) as [z|]; [|discriminate].
    apply Z.eqb_eq in K. subst. reflexivity.
  - intros n n' suffix E. apply app_inj_l in E. apply app_inj_r in E. now apply sd02_inj.
Qed.

(** A ground case and a free-field case that load data *)
Example C117_example :
  files (loadPlane exact (Qmake 64 100) (Qmake 15 10) (LInt 6) false (YInt 0)) =
    Ok (Some (CsvFiles ["../data/Ground/Vertical_Z.csv"; "../data/Ground/Vertical_Y_HH15.csv"]
                       ["../data/Ground/CT064_HH15_Lambda06_Yaw00_Vertical_U.csv"; "../data/Ground/CT064_HH15_Lambda06_Yaw00_Vertical_V.csv";
                        "../data/Ground/CT064_HH15_Lambda06_Yaw00_Vertical_W.csv"; "../data/Ground/CT064_HH15_Lambda06_Yaw00_Vertical_Om.csv"])) /\
  files (loadPlane exact (Qmake 64 100) (Qmake 12 1) LInf true (YInt (-10))) =
    Ok (Some (MatFile "../data/AD_CT064_HH99_Lambda99_Yaw10.mat")) /\
  files (loadPlane exact (Qmake 64 100) (Qmake 12 1) (LInt 6) true (YInt (-10))) = Ok None /\
  files (loadPlane b64 (b64_lit 64 100) (b64_lit 15 10) (LInt 6) true (YInt 0)) =
  files (loadPlane exact (Qmake 64 100) (Qmake 15 10) (LInt 6) true (YInt 0)).
Proof. repeat split; vm_compute; reflexivity. Qed.
