(** * Model of wiz/VortexDoublet.py *)
From Coq Require Import ZArith List Bool String.
From Verif Require Import Num.
Import ListNotations.
Local Open Scope num_scope.

Section Doublet.
  Context {N : Num}.
  Notation pt := (N * N * N)%type.
  (** VortexDoublet.py:26: [x**(3/2)] *)
  Definition p32 (x : N) : N := npow N x (#q(3,2)).
  (** VortexDoublet.py:33: [x**(5/3)] *)
  Definition p53 (x : N) : N := npow N x (#q(5,3)).
  (** VortexDoublet.py:136: [x**(1/2)] *)
  Definition p12 (x : N) : N := npow N x (#q(1,2)).

  (** VortexDoublet.py:10-47, one control point *)
  Definition doublet_u (m x0 : pt) (p : pt) : pt :=
    let '(m0, m1, m2) := m in let '(a0, a1, a2) := x0 in let '(x, y, z) := p in
    let DX := x - a0 in let DY := y - a1 in let DZ := z - a2 in
    let rn := p32 (sq DX + sq DY + sq DZ) in
    let bSing := rn <? #q(1,100000000) in
    let rn3 := if bSing then #1 else rn in
    let rn5 := p53 rn3 in
    let m_dot_r := DX * m0 + DY * m1 + DZ * m2 in
    let Fact1 := #1 / (#4 * npi N) * #3 * m_dot_r / rn5 in
    let Fact2 := #1 / (#4 * npi N) / rn3 in
    if bSing then (#0, #0, #0)
    else (Fact1 * DX - Fact2 * m0, Fact1 * DY - Fact2 * m1, Fact1 * DZ - Fact2 * m2).

  (** VortexDoublet.py:61-79, one control point (r,z) *)
  Definition doublet_u_polar_pt (m_z z0 : N) (p : N * N) : N * N :=
    let '(r, z) := p in
    let DZ := z - z0 in
    let rn := p32 (sq r + sq DZ) in
    let bSing := rn <? #q(1,100000000) in
    let rn3 := if bSing then #1 else rn in
    let rn5 := p53 rn3 in
    if bSing then (#0, #0)
    else (#3 * r * m_z / (#4 * npi N) * DZ / rn5,
          m_z / (#4 * npi N) * (#3 * sq DZ / rn5 - #1 / rn3)).
  (** VortexDoublet.py:56, 118: np.any(rcp<0) *)
  Definition any_neg (ps : list (N * N)) : bool := existsb (fun p => fst p <? #0) ps.
  (** VortexDoublet.py:49-79 *)
  Definition doublet_u_polar (m_z z0 : N) (ps : list (N * N)) : result (list (N * N)) :=
    if any_neg ps then Err (EException "Script meant for positive r")
    else Ok (map (doublet_u_polar_pt m_z z0) ps).

  (** VortexDoublet.py:110-148, one control point.  The masked assignments are
      listed last-first, since the last one wins. bSelfInd is never read. *)
  Definition doublet_line_polar_pt (dmz_dz : N) (p : N * N) : N * N :=
    let '(r, z) := p in
    let e8 := #q(1,100000000) in
    let bZ0 := nabs N z <? e8 in
    let bR0 := nabs N r <? e8 in
    let bZ0R0 := bZ0 && bR0 in
    let bZ0Rp := bZ0 && (nabs N r >? e8) in
    let bR0Zp := bR0 && (z >? e8) in
    let bR0Zm := bR0 && (z <? - e8) in
    let bOK := negb bZ0 && negb bR0 in
    let norm2 := sq r + sq z in
    let c := dmz_dz / (#4 * npi N) in
    let uz :=
      if bZ0R0 then #0
      else if bR0Zm then c * #1 / norm2
      else if bZ0Rp then #0
      else if bOK then c * #1 / sq r * (cube z / p32 norm2 - z / p12 norm2)
      else #0 in
    let cm := - dmz_dz / (#4 * npi N) in
    let ur :=
      if bZ0R0 then #0
      else if bR0Zp then #0
      else if bR0Zm then #0
      else if bZ0Rp then cm * r * #1 / p32 norm2
      else if bOK then cm * r * #1 / p32 norm2
      else #0 in
    (ur, uz).
  (** VortexDoublet.py:110-148 *)
  Definition doublet_line_polar_u (ps : list (N * N)) (dmz_dz : N) (bSelfInd : bool)
    : result (list (N * N)) :=
    if any_neg ps then Err (EException "Script meant for positive r")
    else Ok (map (doublet_line_polar_pt dmz_dz) ps).

  (** VortexDoublet.py:274-279 *)
  Definition I30 (a b c : N) : N := #1 / (a * (a * c - b)).
  (** VortexDoublet.py:281-286 *)
  Definition tI50 (a b c : N) : N := (#2 * a * c - b) / (cube a * sq (a * c - b)).
  (** VortexDoublet.py:288-293 *)
  Definition tI51 (a b c : N) : N := #1 / (a * sq (a * c - b)).
  (** VortexDoublet.py:295-300 *)
  Definition tI52 (a b c : N) : N := #1 / (c * sq (a * c - b)).

  (** VortexDoublet.py:336-338 *)
  Definition i30indef_sing (a b c x : N) : N :=
    let s := nsign N b in s / (#2 * c * sq (a - s * c * x)).
  (** VortexDoublet.py:339-340 *)
  Definition i30indef_norm (a b c x : N) : N :=
    (b - sq c * x) / ((sq b - sq a * sq c) * p12 (sq a - #2 * b * x + sq c * sq x)).
  (** VortexDoublet.py:342-344 *)
  Definition i50indef_sing (a b c x : N) : N :=
    let s := nsign N b in #3 * s / (#4 * c * pow4 (a - s * c * x)).
  (** VortexDoublet.py:345-346 *)
  Definition i50indef_norm (a b c x : N) : N :=
    (b * (sq b - #3 * sq a * sq c) + #2 * sq c * (sq b + sq a * sq c) * x
       - #6 * b * pow4 c * sq x + #2 * pow6 c * cube x)
    / (sq (sq b - sq a * sq c) * p32 (sq a - #2 * b * x + sq c * sq x)).
  (** VortexDoublet.py:348-350 *)
  Definition i51indef_sing (a b c x : N) : N :=
    let s := nsign N b in
    - #3 * (a - s * #4 * c * x) / (#12 * sq c * pow4 (a - s * c * x)).
  (** VortexDoublet.py:351-352 *)
  Definition i51indef_norm (a b c x : N) : N :=
    (- sq a * (sq b + sq a * sq c) + #3 * b * (sq b + sq a * sq c) * x
       - #6 * sq b * sq c * sq x + #2 * b * pow4 c * cube x)
    / (sq (sq b - sq a * sq c) * p32 (sq a - #2 * b * x + sq c * sq x)).
  (** VortexDoublet.py:354-356 *)
  Definition i52indef_sing (a b c x : N) : N :=
    let s := nsign N b in
    #3 * s * (sq a - s * #4 * a * c * x + #6 * sq c * sq x)
    / (#12 * cube c * pow4 (a - s * c * x)).
  (** VortexDoublet.py:357-358 *)
  Definition i52indef_norm (a b c x : N) : N :=
    (- #2 * pow4 a * b + #6 * sq a * sq b * x - #3 * b * (sq b + sq a * sq c) * sq x
       + sq c * (sq b + sq a * sq c) * cube x)
    / (sq (sq b - sq a * sq c) * p32 (sq a - #2 * b * x + sq c * sq x)).
  (** VortexDoublet.py:330-376, one point: (I30, 3*I50, 3*I51, 3*I52) *)
  Definition integrals_DL_finite (a b c L : N) : N * N * N * N :=
    if nabs N (sq b - sq a * sq c) <? #q(1,100000000) then
      (i30indef_sing a b c L - i30indef_sing a b c (#0),
       i50indef_sing a b c L - i50indef_sing a b c (#0),
       i51indef_sing a b c L - i51indef_sing a b c (#0),
       i52indef_sing a b c L - i52indef_sing a b c (#0))
    else
      (i30indef_norm a b c L - i30indef_norm a b c (#0),
       i50indef_norm a b c L - i50indef_norm a b c (#0),
       i51indef_norm a b c L - i51indef_norm a b c (#0),
       i52indef_norm a b c L - i52indef_norm a b c (#0)).

  (** VortexDoublet.py:150-209, one control point *)
  Definition doublet_line_u (dmz_dz m L : N) (p : pt) : pt :=
    let '(x, y, z) := p in
    let e8 := #q(1,100000000) in
    let a := nsqrt N (sq x + sq y + sq z) in
    let b := m * x + z in
    let c := nsqrt N (sq m + #1) in
    let bOnLine := (nabs N y <? e8) && (nabs N (x - m * z) <? e8) && (z >=? #0) && (z <=? L) in
    if bOnLine then (#0, #0, #0)
    else
      let '(i30, ti50, ti51, ti52) :=
        if L =? ninf N then (I30 a b c, tI50 a b c, tI51 a b c, tI52 a b c)
        else integrals_DL_finite a b c L in
      let d := dmz_dz / (#4 * npi N) in
      (d * (x * z * ti50 + m * ti52 - (m * z + x) * ti51),
       d * (y * z * ti50 - y * ti51),
       d * (sq z * ti50 + ti52 - #2 * z * ti51 - i30)).

  (** VortexDoublet.py:85-108: sum of nQuad point doublets (note: the loop
      variable shadows the argument z0) *)
  Definition doublet_line_polar_u_num (dmz_dz z0 zmax : N) (nQuad : nat) (ps : list (N * N))
    : result (list (N * N)) :=
    let zq := linspace z0 zmax nQuad in
    match zq with
    | q0 :: q1 :: _ =>
        let mz := dmz_dz * (q1 - q0) in
        fold_left (fun acc z0 =>
          let* u := acc in
          let* du := doublet_u_polar mz z0 ps in
          Ok (map2 (fun a d => (fst a + fst d, snd a + snd d)) u du))
          zq (Ok (map (fun _ => (#0, #0)) ps))
    | _ => Err EIndexError
    end.
  (** VortexDoublet.py:212-233, one control point *)
  Definition doublet_line_u_num (dmz_dz m zmax : N) (nQuad : nat) (p : pt) : result pt :=
    let zq := linspace (#0) zmax nQuad in
    match zq with
    | q0 :: q1 :: _ =>
        let mz := dmz_dz * (q1 - q0) in
        Ok (fold_left (fun u z0 =>
              let '(u1, u2, u3) := u in
              let '(d1, d2, d3) := doublet_u (#0, #0, mz) (m * z0, #0, z0) p in
              (u1 + d1, u2 + d2, u3 + d3)) zq (#0, #0, #0))
    | _ => Err EIndexError
    end.
  (** VortexDoublet.py:304, 310, 316, 322 *)
  Definition num_r2 (x y z m zp : N) : N := sq (x - m * zp) + sq y + sq (z - zp).
  (** VortexDoublet.py:303,306 and the like: np.trapz over np.linspace(0,zmax,nQuad) *)
  Definition num_quad (dI : N -> N) (zmax : N) (nQuad : nat) : N :=
    let zp := linspace (#0) zmax nQuad in trapz (map dI zp) zp.
  (** VortexDoublet.py:302-306 *)
  Definition I30_num (x y z m : N) (nQuad : nat) (zmax : N) : N :=
    num_quad (fun zp => #1 / p32 (num_r2 x y z m zp)) zmax nQuad.
  (** VortexDoublet.py:308-312 *)
  Definition I50_num (x y z m : N) (nQuad : nat) (zmax : N) : N :=
    num_quad (fun zp => #1 / npow N (num_r2 x y z m zp) (#q(5,2))) zmax nQuad.
  (** VortexDoublet.py:314-318 *)
  Definition I51_num (x y z m : N) (nQuad : nat) (zmax : N) : N :=
    num_quad (fun zp => zp / npow N (num_r2 x y z m zp) (#q(5,2))) zmax nQuad.
  (** VortexDoublet.py:320-324 *)
  Definition I52_num (x y z m : N) (nQuad : nat) (zmax : N) : N :=
    num_quad (fun zp => sq zp / npow N (num_r2 x y z m zp) (#q(5,2))) zmax nQuad.
End Doublet.
