(** C01-C08: Fresnel coefficients (structcol/model.py).  Statements only; the
    proofs are in L_fresnel.v.  [fresnel_reflection n1 n2 angles] is
    [Ok (parallel, perpendicular)] or [Err exception]. *)
From Coq Require Import Lra.
From Verif Require Import Spec Num M_model L_fresnel.
Open Scope R_scope.

(** C01 *)
Theorem C01_fresnel_fractions : forall n1 n2 angles,
  0 < n1 -> 0 < n2 -> Forall (fun t => 0 <= t <= PI / 2) angles ->
  exists rp rs, fresnel_reflection n1 n2 angles = Ok (rp, rs)
    /\ length rp = length angles /\ length rs = length angles
    /\ Forall fraction rp /\ Forall fraction rs.
Proof. exact fresnel_fractions. Qed.
Print Assumptions C01_fresnel_fractions.

(** C02: reflection and transmission succeed together, fail with the same
    exception, and add up to one elementwise. *)
Theorem C02_fresnel_sum_one : forall n1 n2 angles,
  match fresnel_reflection n1 n2 angles, fresnel_transmission n1 n2 angles with
  | Ok (rp, rs), Ok (tp, ts) =>
      length tp = length rp /\ length ts = length rs
      /\ map2 Rplus rp tp = repeat 1 (length rp)
      /\ map2 Rplus rs ts = repeat 1 (length rs)
  | Err e, Err e' => e = e'
  | _, _ => False
  end.
Proof. exact fresnel_sum_one. Qed.
Print Assumptions C02_fresnel_sum_one.

(** C03 *)
Theorem C03_rejects_iff_past_right_angle : forall n1 n2 angles,
  fresnel_reflection n1 n2 angles = Err ValueError <-> Exists (fun t => PI / 2 < t) angles.
Proof. exact fresnel_error_iff. Qed.
Print Assumptions C03_rejects_iff_past_right_angle.

Theorem C03_accepts_otherwise : forall n1 n2 angles,
  Forall (fun t => t <= PI / 2) angles ->
  exists rp rs, fresnel_reflection n1 n2 angles = Ok (rp, rs)
    /\ length rp = length angles /\ length rs = length angles.
Proof. exact fresnel_ok_otherwise. Qed.
Print Assumptions C03_accepts_otherwise.

(** C04: [rays] pairs each incidence angle with its angle of refraction. *)
Theorem C04_fresnel_equations : forall n1 n2 (rays : list (R * R)),
  0 < n1 -> 0 < n2 ->
  Forall (fun p => 0 <= fst p < PI / 2 /\ 0 <= snd p < PI / 2
                   /\ snell n1 (fst p) n2 (snd p)) rays ->
  fresnel_reflection n1 n2 (map fst rays)
  = Ok (map (fun p => textbook_Rp n1 (fst p) n2 (snd p)) rays,
        map (fun p => textbook_Rs n1 (fst p) n2 (snd p)) rays).
Proof. exact fresnel_textbook. Qed.
Print Assumptions C04_fresnel_equations.

(** ... and an angle of refraction exists for every angle with
    n1 sin t1 < n2, so C04 covers all of them. *)
Theorem C04_refracted_angle_exists : forall n1 n2 t1,
  0 < n1 -> 0 < n2 -> 0 <= t1 < PI / 2 -> n1 * sin t1 < n2 ->
  exists t2, 0 <= t2 < PI / 2 /\ snell n1 t1 n2 t2.
Proof. exact snell_exists. Qed.
Print Assumptions C04_refracted_angle_exists.

(** C05 *)
Theorem C05_total_internal_reflection : forall n1 n2 t,
  0 < n2 < n1 -> asin (n2 / n1) <= t <= PI / 2 ->
  fresnel_reflection n1 n2 [t] = Ok ([1], [1]).
Proof. exact fresnel_tir. Qed.
Print Assumptions C05_total_internal_reflection.

Theorem C05_not_total_below_critical : forall n1 n2 t,
  0 < n1 -> 0 < n2 -> 0 <= t < PI / 2 ->
  (n1 <= n2 \/ (n2 < n1 /\ t < asin (n2 / n1))) ->
  exists rp rs, fresnel_reflection n1 n2 [t] = Ok ([rp], [rs]) /\ rp < 1 /\ rs < 1.
Proof. exact fresnel_not_total. Qed.
Print Assumptions C05_not_total_below_critical.

(** C06 *)
Theorem C06_reciprocity : forall n1 n2 t1 t2,
  0 < n1 -> 0 < n2 -> 0 <= t1 < PI / 2 -> 0 <= t2 < PI / 2 -> snell n1 t1 n2 t2 ->
  fresnel_reflection n1 n2 [t1] = fresnel_reflection n2 n1 [t2].
Proof. exact fresnel_reciprocity. Qed.
Print Assumptions C06_reciprocity.

(** C07 *)
Theorem C07_normal_incidence : forall n1 n2,
  0 < n1 -> 0 < n2 ->
  fresnel_reflection n1 n2 [0]
  = Ok ([((n1 - n2) / (n1 + n2)) ^ 2], [((n1 - n2) / (n1 + n2)) ^ 2]).
Proof. exact fresnel_normal. Qed.
Print Assumptions C07_normal_incidence.

Theorem C07_no_contrast : forall n t,
  0 < n -> 0 <= t < PI / 2 -> fresnel_reflection n n [t] = Ok ([0], [0]).
Proof. exact fresnel_no_contrast. Qed.
Print Assumptions C07_no_contrast.

Theorem C07_brewster : forall n1 n2,
  0 < n1 -> 0 < n2 ->
  exists rs, fresnel_reflection n1 n2 [atan (n2 / n1)] = Ok ([0], [rs]).
Proof. exact fresnel_brewster. Qed.
Print Assumptions C07_brewster.

(** C08.  The full statement (even in the angle for every accepted angle) is
    false of the code: the total-reflection mask tests [theta >= asin(n2/n1)],
    so past the critical angle a negative angle is not masked.  It holds below
    the critical angle. *)
Theorem C08_even_below_critical_partial : forall n1 n2 t,
  0 < n1 -> 0 < n2 -> 0 <= t < PI / 2 ->
  (n1 <= n2 \/ (n2 < n1 /\ t < asin (n2 / n1))) ->
  fresnel_reflection n1 n2 [- t] = fresnel_reflection n1 n2 [t].
Proof. exact fresnel_even_partial. Qed.
Print Assumptions C08_even_below_critical_partial.

Theorem C08_even_refuted :
  exists n1 n2 t, 0 < n1 /\ 0 < n2 /\ 0 <= t <= PI / 2 /\
  fresnel_reflection n1 n2 [- t] <> fresnel_reflection n1 n2 [t].
Proof. exact fresnel_even_refuted_l. Qed.
Print Assumptions C08_even_refuted.

(** * Non-vacuity: concrete instances of the hypotheses *)
Example fresnel_ex_angles : Forall (fun t => 0 <= t <= PI / 2) [0; PI / 4; PI / 2].
Proof. pose proof PI_RGT_0; repeat (apply Forall_cons; [lra|]); apply Forall_nil. Qed.
(** glass to air at 30 degrees: n1 = 3/2, n2 = 1, sin t2 = 3/4 *)
Example fresnel_ex_snell :
  snell (3 / 2) (PI / 6) 1 (asin (3 / 4)) /\ 0 <= PI / 6 < PI / 2
  /\ 0 <= asin (3 / 4) < PI / 2 /\ 3 / 2 * sin (PI / 6) < 1.
Proof.
  pose proof PI_RGT_0. unfold snell. rewrite sin_asin by lra. rewrite sin_PI6.
  assert (Ha := asin_bound_lt (3 / 4) ltac:(lra)).
  assert (0 <= asin (3 / 4)).
  { apply Rnot_lt_le. intro Hn.
    assert (Hs := sin_lt_0_var (asin (3 / 4)) ltac:(lra) Hn).
    rewrite sin_asin in Hs by lra. lra. }
  repeat split; lra.
Qed.
Example fresnel_ex_tir : 0 < 1 < 3 / 2 /\ asin (1 / (3 / 2)) <= PI / 2 <= PI / 2.
Proof. pose proof (asin_bound (1 / (3 / 2))). repeat split; lra. Qed.
