(** C145: the monodisperse limit of the polydisperse structure factor. *)
From Verif Require Import Num L_num M_structure L_structure L_poly L_polylim L_polymono.
From Coq Require Import Lra Lia.
From Coquelicot Require Import Complex.
Open Scope R_scope.

(** What the function computes for one species of width [w]: the formula at
    width max(w, 1e-5). *)
Theorem C145_floor : forall q phi c d w,
  factor_poly q phi [mkSp c d w] = factor_poly_w q phi [mkSp c d (Rmax w 1e-5)].
Proof.
  intros q phi c d w. unfold factor_poly. cbn [map]. unfold floor_sp. cbn [sp_c sp_d sp_pdi].
  assert (E : pdi_floor w = Rmax w 1e-5).
  { unfold pdi_floor. destruct (Rltb w 1e-5) eqn:E.
    - apply Rltb_true in E. rewrite Rmax_right by lra. reflexivity.
    - apply Rltb_false in E. rewrite Rmax_left by lra. reflexivity. }
  now rewrite E.
Qed.
Print Assumptions C145_floor.

(** As the width goes to 0 the formula for one species tends to the monodisperse
    (Percus-Yevick) structure factor, with an error of at most K w^2 - at every
    scattering vector where the sphere's form factor, proportional to
    (sin h - h cos h)^2 with h = q d/2, does not vanish. *)
Theorem C145_monodisperse : forall q phi d, 0 < q -> 0 < phi < 1 -> 0 < d ->
  sin (q * d / 2) <> q * d / 2 * cos (q * d / 2) ->
  exists S K w0, factor_py (q * d) phi = Some S /\ 0 < w0 /\
    forall w, 0 < w < w0 -> Rabs (factor_poly_w q phi [mkSp 1 d w] - S) <= K * w ^ 2.
Proof.
  intros q phi d Hq Hp Hd Hg. destruct (mono_limit q phi d Hq Hp Hd Hg) as (S & E & K & w0 & _ & Hw & B).
  exists S, K, w0. split; [exact E|]. split; [exact Hw|exact B].
Qed.
Print Assumptions C145_monodisperse.

(** The comment in the code, "if the pdi is zero, assume it's very small (we get
    the same results)", fails at the zeros of the form factor: there the formula
    tends to 1, whereas the monodisperse structure factor is
    (4 + y^2)/(4 ((1+2 phi)/(1-phi))^2 + y^2) < 1, y = q d. *)
Theorem C145_form_factor_zero : forall q phi d, 0 < q -> 0 < phi < 1 -> 0 < d -> let y := q * d in
  sin (y / 2) = y / 2 * cos (y / 2) ->
  (exists K w0, 0 < w0 /\ forall w, 0 < w < w0 -> Rabs (factor_poly_w q phi [mkSp 1 d w] - 1) <= K * w ^ 2) /\
  exists S, factor_py y phi = Some S /\ S = (4 + y ^ 2) / (4 * ((1 + 2 * phi) / (1 - phi)) ^ 2 + y ^ 2) /\ S < 1.
Proof.
  intros q phi d Hq Hp Hd y Hg. split.
  - destruct (mono_zero q phi d Hq Hp Hd Hg) as (K & w0 & _ & Hw & B). exists K, w0. split; [exact Hw|exact B].
  - assert (Hy : 0 < y) by (apply Rmult_lt_0_compat; assumption).
    eexists. split; [exact (mono_zero_py y phi Hy Hp Hg)|]. split; [reflexivity|].
    assert (A : 1 < (1 + 2 * phi) / (1 - phi)).
    { apply (Rmult_lt_reg_r (1 - phi)); [lra|]. replace ((1 + 2 * phi) / (1 - phi) * (1 - phi)) with (1 + 2 * phi) by (field; lra). lra. }
    set (a := (1 + 2 * phi) / (1 - phi)) in *. pose proof (pow2_ge_0 y).
    assert (1 < a ^ 2) by (simpl; nra). apply (Rmult_lt_reg_r (4 * a ^ 2 + y ^ 2)); [lra|].
    replace ((4 + y ^ 2) / (4 * a ^ 2 + y ^ 2) * (4 * a ^ 2 + y ^ 2)) with (4 + y ^ 2) by (field; lra). lra.
Qed.
Print Assumptions C145_form_factor_zero.

(** Both cases occur: y = pi is not a zero, and there is one between 2 pi and
    3 pi (8.9868...). *)
Example C145_not_a_zero : sin (PI / 2) <> PI / 2 * cos (PI / 2).
Proof. rewrite sin_PI2, cos_PI2. lra. Qed.
Example C145_a_zero : exists y, 2 * PI <= y <= 3 * PI /\ sin (y / 2) = y / 2 * cos (y / 2).
Proof.
  pose proof PI_RGT_0 as HP. set (f := fun y => y / 2 * cos (y / 2) - sin (y / 2)).
  assert (Cf : continuity f) by (unfold f; intros x; reg).
  destruct (IVT_cor f (2 * PI) (3 * PI) Cf) as (z & Hz & E); [lra| |].
  - unfold f. replace (2 * PI / 2) with PI by field. rewrite cos_PI, sin_PI.
    replace (3 * PI / 2) with (3 * (PI / 2)) by field. rewrite sin_3PI2, cos_3PI2. nra.
  - exists z. split; [exact Hz|]. unfold f in E. lra.
Qed.
