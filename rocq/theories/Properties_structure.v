(** Structure factors: C48-C50 and C71-C74. *)
From Coq Require Import Lra Lia Psatz.
From Coquelicot Require Import Coquelicot.
From Verif Require Import Spec L_num M_refractive_index M_structure Spec_optics L_interp
  L_structure L_structure2 L_poly.
Open Scope R_scope.

(** C48: factor_py is the Ornstein-Zernike structure factor 1/(1 - rho c^(q))
    of the hard-sphere direct correlation function [cc] used by the package's
    radial_dist_py, rho being the number density. *)
Theorem C48_py_is_transform : forall q phi, 0 < q -> 0 < phi < 1 ->
  factor_py q phi
  = Some (1 / (1 - hs_density phi * radial_transform (fun r => cc r phi) q)).
Proof.
  intros q phi Hq Hp. rewrite (proj2 (factor_py_value q phi Hq Hp)).
  do 3 f_equal. rewrite (py_c_integral q phi) by lra.
  unfold hs_density, radial_transform.
  rewrite (RInt_ext (fun r => r ^ 2 * (sin (q * r) / (q * r)) * cc r phi)
                    (fun r => r * (sin (q * r) / q) * cc r phi)).
  - pose proof PI_RGT_0. field. lra.
  - intros r Hr. rewrite Rmin_left, Rmax_right in Hr by lra.
    match goal with |- @eq _ ?a ?b => change (@eq R a b) end. field. lra.
Qed.
Print Assumptions C48_py_is_transform.

(** ... and that function vanishes outside the particle. *)
Theorem C48_direct_correlation_range : forall r phi, 1 < r -> cc r phi = 0.
Proof. intros r phi H. unfold cc. rewrite (proj2 (Rltb_true _ _)) by lra. reflexivity. Qed.
Print Assumptions C48_direct_correlation_range.

(** C49: the paracrystal factor is finite, positive and between (1-r)/(1+r) and
    (1+r)/(1-r) ... *)
Theorem C49_para_bounds : forall qd phi sigma, 0 < qd -> 0 < phi -> 0 < sigma ->
  let r := exp (- (qd * Rpower phi (- (1 / 3)) * sigma) ^ 2 / 2) in
  0 < r < 1 /\
  exists S, factor_para qd phi sigma = Some S /\ 0 < S /\
            (1 - r) / (1 + r) <= S <= (1 + r) / (1 - r).
Proof.
  intros q phi s Hq _ Hs r. split; [apply para_r_bounds; assumption|].
  apply factor_para_value; assumption.
Qed.
Print Assumptions C49_para_bounds.

(** ... and tends to 1 as the disorder grows. *)
Theorem C49_para_disorder_limit : forall qd phi, 0 < qd -> 0 < phi -> forall eps, 0 < eps ->
  exists sigma0, 0 < sigma0 /\ forall sigma, sigma0 < sigma ->
    exists S, factor_para qd phi sigma = Some S /\ Rabs (S - 1) < eps.
Proof. intros. apply factor_para_disorder; assumption. Qed.
Print Assumptions C49_para_disorder_limit.

(** C50: tabulated values are returned at tabulated points, ... *)
Theorem C50_data_at_points : forall table i, increasing table -> (2 <= length table)%nat ->
  (i < length table)%nat ->
  factor_data table (fst (nth i table (0, 0))) = Ok (snd (nth i table (0, 0))).
Proof. intros. apply factor_data_table; assumption. Qed.
Print Assumptions C50_data_at_points.

(** ... the straight line between neighbours in between, ... *)
Theorem C50_data_between : forall table i qd, increasing table -> (S i < length table)%nat ->
  fst (nth i table (0, 0)) <= qd <= fst (nth (S i) table (0, 0)) ->
  exists v, factor_data table qd = Ok v /\
    v = chord (nth i table (0, 0)) (nth (S i) table (0, 0)) qd /\
    between (snd (nth i table (0, 0))) (snd (nth (S i) table (0, 0))) v.
Proof.
  intros t i q Hinc Hi Hq. eexists. split; [|split; [reflexivity|]].
  - apply factor_data_in, (interp_linear_chord t i); assumption.
  - apply chord_between; [apply Hinc; assumption|assumption].
Qed.
Print Assumptions C50_data_between.

(** ... and nothing outside the range of the data, for any query, ... *)
Theorem C50_data_range : forall table qd lo hi, increasing table -> (2 <= length table)%nat ->
  (forall p, In p table -> lo <= snd p <= hi) ->
  exists v, factor_data table qd = Ok v /\ lo <= v <= hi.
Proof. intros. apply factor_data_range; assumption. Qed.
Print Assumptions C50_data_range.

(** ... but beyond the table, on either side, it is the first tabulated value
    (so above the table it does not continue the data). *)
Theorem C50_data_outside : forall table qd, table <> [] ->
  qd < fst (nth 0 table (0, 0)) \/ fst (nth (length table - 1) table (0, 0)) < qd ->
  factor_data table qd = Ok (snd (nth 0 table (0, 0))).
Proof. intros. apply factor_data_outside; assumption. Qed.
Print Assumptions C50_data_outside.

(** C71: the Percus-Yevick factor is a positive real number for every
    scattering vector and every density of spheres. *)
Theorem C71_py_positive : forall qd phi, 0 < qd -> 0 < phi < 1 ->
  exists S, factor_py qd phi = Some S /\ 0 < S.
Proof.
  intros q phi Hq Hp. destruct (factor_py_value q phi Hq Hp) as [B E].
  eexists. split; [exact E|]. apply Rmult_lt_0_compat; [lra | apply Rinv_0_lt_compat; exact B].
Qed.
Print Assumptions C71_py_positive.

(** C72: its long-wavelength limit is the Percus-Yevick compressibility and its
    short-wavelength limit is 1. *)
Theorem C72_py_low_q : forall phi, 0 < phi < 1 -> forall eps, 0 < eps ->
  exists delta, 0 < delta /\ forall qd, 0 < qd < delta ->
    exists S, factor_py qd phi = Some S /\
              Rabs (S - (1 - phi) ^ 4 / (1 + 2 * phi) ^ 2) < eps.
Proof.
  intros phi Hp eps He. destruct (factor_py_low phi Hp eps He) as [d [Hd H]].
  exists d. split; [exact Hd|]. intros q Hq.
  destruct (C71_py_positive q phi (proj1 Hq) Hp) as [S [E _]]. exists S. eauto.
Qed.
Print Assumptions C72_py_low_q.

Theorem C72_py_high_q : forall phi, 0 < phi < 1 -> forall eps, 0 < eps ->
  exists Q, 0 < Q /\ forall qd, Q < qd ->
    exists S, factor_py qd phi = Some S /\ Rabs (S - 1) < eps.
Proof.
  intros phi Hp eps He. destruct (factor_py_high phi Hp eps He) as [d [Hd H]].
  exists d. split; [exact Hd|]. intros q Hq.
  destruct (C71_py_positive q phi ltac:(lra) Hp) as [S [E _]]. exists S. eauto.
Qed.
Print Assumptions C72_py_high_q.

(** C73: the polydisperse factor is non-negative, ... *)
Theorem C73_poly_nonneg : forall q phi l, 0 <= factor_poly q phi l.
Proof. apply factor_poly_nonneg. Qed.
Print Assumptions C73_poly_nonneg.

(** ... and depends on scattering vector and diameters only through their
    products: enlarging all particles by a factor is the same as shrinking the
    scattering vector by it. *)
Theorem C73_poly_scale : forall lam q phi l,
  0 < lam -> q <> 0 -> 0 < phi < 1 -> (length l = 1 \/ length l = 2)%nat ->
  (forall k, In k l -> 0 <= sp_c k /\ 0 < sp_d k) ->
  factor_poly (q / lam) phi
    (map (fun k => {| sp_c := sp_c k; sp_d := lam * sp_d k; sp_pdi := sp_pdi k |}) l)
  = factor_poly q phi l.
Proof.
  intros lam q phi l H1 H2 H3 H4 H5. apply factor_poly_scale; try assumption.
  apply Forall_forall. exact H5.
Qed.
Print Assumptions C73_poly_scale.

(** C74: the order in which the two species are given does not matter, ... *)
Theorem C74_poly_order : forall q phi s0 s1,
  0 <= sp_c s0 -> 0 <= sp_c s1 -> 0 < sp_c s0 + sp_c s1 -> 0 < sp_d s0 -> 0 < sp_d s1 ->
  factor_poly q phi [s1; s0] = factor_poly q phi [s0; s1].
Proof. intros. apply factor_poly_swap; [split| split|]; assumption. Qed.
Print Assumptions C74_poly_order.

(** ... two species of the same particles are one species, ... *)
Theorem C74_poly_identical_species : forall q phi c d pdi, 0 < c < 1 -> 0 < d ->
  factor_poly q phi [mkSp c d pdi; mkSp (1 - c) d pdi] = factor_poly q phi [mkSp 1 d pdi].
Proof.
  intros q phi c d p Hc Hd. rewrite factor_poly_same by lra.
  replace (c + (1 - c)) with 1 by ring. reflexivity.
Qed.
Print Assumptions C74_poly_identical_species.

(** ... and a species with concentration 0 is not there. *)
Theorem C74_poly_absent_species : forall q phi s d pdi, 0 < sp_c s ->
  factor_poly q phi [s; mkSp 0 d pdi] = factor_poly q phi [s] /\
  factor_poly q phi [mkSp 0 d pdi; s] = factor_poly q phi [s].
Proof. intros. apply factor_poly_absent. lra. Qed.
Print Assumptions C74_poly_absent_species.

(** ... and the density used is the one of spheres with Schulz-distributed
    diameters filling the volume fraction: number density times the mean volume
    of a sphere, pi/6 d^3 (1+w^2)(1+2w^2) for mean d and relative width w, is
    phi. *)
Theorem C74_density : forall phi s0 s1,
  0 <= sp_c s0 -> 0 <= sp_c s1 -> sp_c s0 + sp_c s1 = 1 -> 0 < sp_d s0 -> 0 < sp_d s1 ->
  let volume s := let w := Rmax (sp_pdi s) 1e-5 in PI / 6 * sp_d s ^ 3 * ((1 + w ^ 2) * (1 + 2 * w ^ 2)) in
  poly_rho phi (map floor_sp [s0; s1]) * (sp_c s0 * volume s0 + sp_c s1 * volume s1) = phi.
Proof.
  intros phi s0 s1 H0 H1 Hs D0 D1 volume. pose proof PI_RGT_0 as HP.
  assert (V : forall s, volume s = PI / 6 * sp_d s ^ 3 * sp_t3 (floor_sp s)).
  { intros s. unfold volume, sp_t3, Dsigma. cbn [sp_pdi floor_sp].
    assert (E : pdi_floor (sp_pdi s) = Rmax (sp_pdi s) 1e-5).
    { unfold pdi_floor. destruct (Rltb (sp_pdi s) 1e-5) eqn:E.
      - apply Rltb_true in E. rewrite Rmax_right by lra. reflexivity.
      - apply Rltb_false in E. rewrite Rmax_left by lra. reflexivity. }
    rewrite E. ring. }
  rewrite !V. pose proof (sp_t3_pos (floor_sp s0)). pose proof (sp_t3_pos (floor_sp s1)). cbn [map]. unfold poly_rho, rho_of.
  change (sp_c (floor_sp s0)) with (sp_c s0). change (sp_c (floor_sp s1)) with (sp_c s1).
  change (sp_d (floor_sp s0)) with (sp_d s0). change (sp_d (floor_sp s1)) with (sp_d s1).
  pose proof (pow_lt _ 3 D0). pose proof (pow_lt _ 3 D1).
  destruct (Reqb (sp_c s0) 0) eqn:E0; [|destruct (Reqb (sp_c s1) 0) eqn:E1].
  - apply Reqb_true in E0. rewrite E0 in *. replace (sp_c s1) with 1 by lra. field. repeat split; lra.
  - apply Reqb_true in E1. rewrite E1 in *. replace (sp_c s0) with 1 by lra. field. repeat split; lra.
  - apply Reqb_false in E0, E1. assert (P0 : 0 < sp_c s0) by lra. assert (P1 : 0 < sp_c s1) by lra.
    set (c0 := sp_c s0) in *. set (c1 := sp_c s1) in *. set (d0 := sp_d s0) in *. set (d1 := sp_d s1) in *.
    set (a := sp_t3 (floor_sp s0)) in *. set (b := sp_t3 (floor_sp s1)) in *.
    assert (0 < c0 * d0 ^ 3 * a) by (apply Rmult_lt_0_compat; [apply Rmult_lt_0_compat|]; assumption).
    assert (0 < c1 * d1 ^ 3 * b) by (apply Rmult_lt_0_compat; [apply Rmult_lt_0_compat|]; assumption).
    replace (1 / (c0 / c1 * (d0 / d1) ^ 3 * a / b + 1)) with (c1 * d1 ^ 3 * b / (c0 * d0 ^ 3 * a + c1 * d1 ^ 3 * b))
      by (field; repeat split; lra).
    replace (6 * (phi - c1 * d1 ^ 3 * b / (c0 * d0 ^ 3 * a + c1 * d1 ^ 3 * b) * phi) / (a * PI * d0 ^ 3))
      with (6 * phi / PI * c0 / (c0 * d0 ^ 3 * a + c1 * d1 ^ 3 * b)) by (field; repeat split; lra).
    replace (6 * (c1 * d1 ^ 3 * b / (c0 * d0 ^ 3 * a + c1 * d1 ^ 3 * b) * phi) / (b * PI * d1 ^ 3))
      with (6 * phi / PI * c1 / (c0 * d0 ^ 3 * a + c1 * d1 ^ 3 * b)) by (field; repeat split; lra).
    replace (6 * phi / PI * c0 / (c0 * d0 ^ 3 * a + c1 * d1 ^ 3 * b) + 6 * phi / PI * c1 / (c0 * d0 ^ 3 * a + c1 * d1 ^ 3 * b))
      with (6 * phi / PI * (c0 + c1) / (c0 * d0 ^ 3 * a + c1 * d1 ^ 3 * b)) by (field; repeat split; lra).
    rewrite Hs. field. repeat split; lra.
Qed.
Print Assumptions C74_density.

(** ** The hypotheses are met. *)

Example C48_example : py_c 1 (1 / 2) < 1.
Proof. destruct (factor_py_value 1 (1 / 2)) as [B _]; lra. Qed.

Example C50_example : increasing [(1, 2); (2, 5); (4, 3)] /\
  factor_data [(1, 2); (2, 5); (4, 3)] 3 = Ok 4 /\
  factor_data [(1, 2); (2, 5); (4, 3)] 9 = Ok 2.
Proof.
  assert (I : increasing [(1, 2); (2, 5); (4, 3)])
    by (intros [|[|[|i]]] Hi; cbn in *; try lra; lia).
  split; [exact I|]. split.
  - destruct (C50_data_between _ 1 3 I ltac:(cbn; lia)) as [v [E [V _]]]; [cbn; lra|].
    rewrite E, V. f_equal. unfold chord; cbn. lra.
  - rewrite C50_data_outside; [reflexivity|discriminate|right; cbn; lra].
Qed.

Example C73_example : Forall good_sp [mkSp 0.9 0.25 0.1; mkSp 0.1 0.3 0.05] /\
  poly_rho 0.5 [mkSp 0.9 0.25 0] <> 0.
Proof.
  split; [repeat (constructor; [split; cbn; lra|]); constructor|].
  apply Rgt_not_eq, poly_rho_pos; [lra| |left; reflexivity].
  constructor; [split; cbn; lra|constructor].
Qed.

(** An answer is given exactly when there are data at all; an empty table raises
    IndexError. *)
Theorem C50_data_answered : forall table qd,
  ((exists v, factor_data table qd = Ok v) <-> table <> []) /\ (table = [] -> factor_data table qd = Err IndexError).
Proof.
  intros [|[x y] t] qd; split.
  - split; [intros [v H]; discriminate|congruence].
  - reflexivity.
  - split; [discriminate|]. intros _. eexists. reflexivity.
  - discriminate.
Qed.
Print Assumptions C50_data_answered.
