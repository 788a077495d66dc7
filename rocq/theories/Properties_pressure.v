(** C174: the structure factor and the thermodynamics of hard spheres. *)
From Coq Require Import Lra Lia Psatz Reals List.
From Verif Require Import Num Spec Spec_optics Spec_pressure M_structure L_num L_structure Properties_structure.
From Coquelicot Require Import Coquelicot.
Local Notation c0 := M_structure.c0.
Local Notation c1 := M_structure.c1.
Local Notation c3 := M_structure.c3.
Open Scope R_scope.

(** What the pressure formula is worth: its first virial coefficients are the exact
    ones of hard spheres, 4 and 10. *)
Theorem C174_virial : forall phi, 0 < phi <= 1 / 2 -> Rabs (pressure phi - (phi + 4 * phi ^ 2 + 10 * phi ^ 3)) <= 152 * phi ^ 4.
Proof.
  intros p Hp. unfold pressure. set (d := (1 - p) ^ 3). assert (D : / 8 <= d) by (unfold d; simpl; nra).
  assert (E : p * (1 + p + p ^ 2) / d - (p + 4 * p ^ 2 + 10 * p ^ 3) = p ^ 4 * ((19 - 26 * p + 10 * p ^ 2) / d)) by (unfold d; field; lra).
  assert (B : 0 <= (19 - 26 * p + 10 * p ^ 2) / d <= 152).
  { split; [apply Rmult_le_pos; [nra|left; apply Rinv_0_lt_compat; lra]|]. apply (Rmult_le_reg_r d); [lra|]. unfold Rdiv. rewrite Rmult_assoc, Rinv_l by lra. nra. }
  assert (P4 : 0 <= p ^ 4) by (apply pow_le; lra). rewrite E, Rabs_pos_eq; nra.
Qed.
Print Assumptions C174_virial.

Definition S0 (phi : R) : R := (1 - phi) ^ 4 / (1 + 2 * phi) ^ 2.
Lemma S0_pos p : 0 < p < 1 -> 0 < S0 p.
Proof. intros H. apply Rdiv_lt_0_compat; apply pow_lt; lra. Qed.
Lemma sq_lt a b : 0 <= a < b -> a ^ 2 < b ^ 2.
Proof. intros H. nra. Qed.
Lemma S0_lt p1 p2 : 0 < p1 < p2 -> p2 < 1 -> S0 p2 < S0 p1.
Proof.
  intros H1 H2. unfold S0, Rdiv. apply Rmult_le_0_lt_compat.
  - apply pow_le; lra.
  - left. apply Rinv_0_lt_compat, pow_lt; lra.
  - replace ((1 - p2) ^ 4) with (((1 - p2) ^ 2) ^ 2) by ring. replace ((1 - p1) ^ 4) with (((1 - p1) ^ 2) ^ 2) by ring. apply sq_lt. split; [apply pow2_ge_0|]. apply sq_lt; lra.
  - apply Rinv_lt_contravar; [apply Rmult_lt_0_compat; apply pow_lt; lra|]. apply sq_lt; lra.
Qed.

(** C174.  At long wavelengths the structure factor is the compressibility: it tends
    to the inverse of the slope of the pressure. *)
Theorem C174_compressibility : forall phi, 0 < phi < 1 -> exists slope, is_derive pressure phi slope /\ 0 < slope /\
  forall eps, 0 < eps -> exists delta, 0 < delta /\ forall qd, 0 < qd < delta -> exists S, factor_py qd phi = Some S /\ Rabs (S - 1 / slope) < eps.
Proof.
  intros p Hp. exists ((1 + 2 * p) ^ 2 / (1 - p) ^ 4). split; [|split].
  - unfold pressure. assert (Z : 1 - p <> 0) by lra. auto_derive; [apply (pow_nonzero _ 3 Z)|]. field. exact Z.
  - apply Rdiv_lt_0_compat; apply pow_lt; lra.
  - intros eps He. destruct (C72_py_low_q p Hp eps He) as (d & Hd & H). exists d. split; [exact Hd|]. intros q Hq. destruct (H q Hq) as (S & E & B). exists S. split; [exact E|].
    replace (1 / ((1 + 2 * p) ^ 2 / (1 - p) ^ 4)) with ((1 - p) ^ 4 / (1 + 2 * p) ^ 2) by (field; lra). exact B.
Qed.
Print Assumptions C174_compressibility.

(** Denser suspensions scatter less per particle forward: of two volume fractions
    the larger has the smaller structure factor at all small scattering vectors. *)
Theorem C174_denser : forall phi1 phi2, 0 < phi1 < phi2 -> phi2 < 1 ->
  exists delta, 0 < delta /\ forall qd, 0 < qd < delta -> exists S1 S2, factor_py qd phi1 = Some S1 /\ factor_py qd phi2 = Some S2 /\ 0 < S2 < S1 /\ S1 < 1.
Proof.
  intros p1 p2 H1 H2. pose proof (S0_lt p1 p2 H1 H2) as L. set (e := Rmin ((S0 p1 - S0 p2) / 2) (1 - S0 p1)).
  assert (L1 : S0 p1 < 1).
  { unfold S0. apply (Rmult_lt_reg_r ((1 + 2 * p1) ^ 2)); [apply pow_lt; lra|]. unfold Rdiv. rewrite Rmult_assoc, Rinv_l by (apply pow_nonzero; lra).
    assert ((1 - p1) ^ 2 < 1) by nra. assert (0 <= (1 - p1) ^ 2) by apply pow2_ge_0. replace ((1 - p1) ^ 4) with ((1 - p1) ^ 2 * (1 - p1) ^ 2) by ring. assert (1 < (1 + 2 * p1) ^ 2) by nra. nra. }
  assert (He : 0 < e) by (apply Rmin_pos; lra). assert (E1 : e <= (S0 p1 - S0 p2) / 2) by apply Rmin_l. assert (E2 : e <= 1 - S0 p1) by apply Rmin_r.
  destruct (C72_py_low_q p1 ltac:(lra) e He) as (d1 & D1 & K1). destruct (C72_py_low_q p2 ltac:(lra) e He) as (d2 & D2 & K2).
  exists (Rmin d1 d2). split; [now apply Rmin_pos|]. intros q Hq. pose proof (Rmin_l d1 d2). pose proof (Rmin_r d1 d2).
  destruct (K1 q ltac:(lra)) as (S1 & F1 & B1). destruct (K2 q ltac:(lra)) as (S2 & F2 & B2). exists S1, S2.
  destruct (C71_py_positive q p2 ltac:(lra) ltac:(lra)) as (S2' & G2 & P2). rewrite F2 in G2. injection G2 as <-.
  apply Rabs_def2 in B1, B2. fold (S0 p1) in B1. fold (S0 p2) in B2. repeat split; try assumption; lra.
Qed.
Print Assumptions C174_denser.

(** ** Dilute suspensions *)
Definition kern (q r : R) : R := r * (sin (q * r) / q).
Lemma abs_sin_le x : 0 <= x -> Rabs (sin x) <= x.
Proof.
  intros Hx. apply Rabs_le. split.
  - destruct (Rle_lt_dec x PI) as [L|L].
    + pose proof (sin_ge_0 x Hx L). lra.
    + pose proof (SIN_bound x). pose proof PI2_3_2. lra.
  - pose proof (sin_bound_cubic x Hx). lra.
Qed.
Lemma kern_bound q r : 0 < q -> 0 <= r <= 1 -> Rabs (kern q r) <= r ^ 2.
Proof.
  intros Hq Hr. unfold kern. pose proof (abs_sin_le (q * r) ltac:(nra)) as B. unfold Rdiv. rewrite !Rabs_mult, (Rabs_pos_eq r), (Rabs_pos_eq (/ q)) by (lra || (left; apply Rinv_0_lt_compat; lra)).
  apply (Rmult_le_compat_r (/ q)) in B; [|left; apply Rinv_0_lt_compat; lra]. replace (q * r * / q) with r in B by (field; lra).
  apply (Rmult_le_compat_l r) in B; [|lra]. simpl. lra.
Qed.
Lemma square_int k : is_RInt (fun r => k * r ^ 2) 0 1 (k / 3).
Proof.
  refine (eq_ind _ (fun v : R => is_RInt _ 0 1 v) (is_RInt_derive (fun r => k * r ^ 3 / 3) _ 0 1 _ _) _ _).
  - intros r _. auto_derive; [exact Logic.I|]. field.
  - intros r _. apply (ex_derive_continuous (V := R_NormedModule)). auto_derive. exact Logic.I.
  - unfold minus, plus, opp. cbn. field.
Qed.
Lemma int_bound (f : R -> R) v k : is_RInt f 0 1 v -> (forall r, 0 <= r <= 1 -> Rabs (f r) <= k * r ^ 2) -> Rabs v <= k / 3.
Proof.
  intros H B. apply Rabs_le. split.
  - pose proof (square_int (- k)) as Q. assert (L : - k / 3 <= v); [|lra]. refine (is_RInt_le _ _ 0 1 _ _ ltac:(lra) Q H _). intros r Hr. specialize (B r ltac:(lra)). pose proof (Rle_abs (- f r)) as A. rewrite Rabs_Ropp in A. lra.
  - refine (is_RInt_le _ _ 0 1 _ _ ltac:(lra) H (square_int k) _). intros r Hr. specialize (B r ltac:(lra)). pose proof (Rle_abs (f r)). lra.
Qed.
Lemma poly_int q : 0 < q -> forall a b c, exists v, is_RInt (fun r => kern q r * (a + b * r + c * r ^ 3)) 0 1 v.
Proof.
  intros Hq a b c. apply (ex_RInt_continuous (V := R_CompleteNormedModule)). intros r _. unfold kern. apply (ex_derive_continuous (V := R_NormedModule)). auto_derive. lra.
Qed.
Lemma int_same q phi v : is_RInt (fun r => kern q r * (c0 phi + c1 phi * r + c3 phi * r ^ 3)) 0 1 v -> RInt (fun r => r * (sin (q * r) / q) * cc r phi) 0 1 = v.
Proof.
  intros H. apply is_RInt_unique. refine (is_RInt_ext _ _ _ _ _ _ H). intros r Hr. rewrite Rmin_left, Rmax_right in Hr by lra. unfold cc, kern.
  rewrite (proj2 (Rltb_false _ _)) by lra. match goal with |- @eq _ ?a ?b => change (@eq R a b) end. ring.
Qed.
Lemma coeffs p : 0 < p <= 1 / 100 -> 0 <= - 1 - c0 p <= 9 * p /\ 0 <= c1 p <= 7 * p /\ - p <= c3 p <= 0.
Proof.
  intros Hp. unfold c3, c0, c1. set (d := (1 - p) ^ 4). assert (Q0 : 0 <= p * p) by nra. assert (Q1 : p * p <= p / 100) by nra.
  assert (D : 96 / 100 <= d <= 1). { unfold d. assert (98 / 100 <= (1 - p) ^ 2 <= 1) by nra. replace ((1 - p) ^ 4) with ((1 - p) ^ 2 * (1 - p) ^ 2) by ring. nra. }
  assert (I : 1 <= / d <= 105 / 100).
  { split; [rewrite <- Rinv_1; apply Rinv_le_contravar; lra|]. apply (Rmult_le_reg_r d); [lra|]. rewrite Rinv_l; lra. }
  assert (DI : d * / d = 1) by (apply Rinv_r; lra).
  assert (DE : d = 1 - 4 * p + 6 * (p * p) - 4 * (p * p * p) + p * p * (p * p)) by (unfold d; ring).
  assert (P3 : 0 <= p * p * p <= p / 10000) by nra. assert (P4 : 0 <= p * p * (p * p) <= p / 1000000) by nra.
  set (i := / d) in *. unfold Rdiv. fold d. fold i. clearbody i. repeat split.
  - assert (0 <= ((1 + 2 * p) ^ 2 - d) * i) by (apply Rmult_le_pos; [nra|lra]). nra.
  - assert (((1 + 2 * p) ^ 2 - d) * i <= (8 * p + p / 10) * (105 / 100)) by (apply Rmult_le_compat; [nra|lra|nra|lra]). nra.
  - apply Rmult_le_pos; [|lra]. apply Rmult_le_pos; [lra|]. apply pow2_ge_0.
  - replace (7 * p) with (p * 7) by ring. assert ((1 + p * (1 * / 2)) ^ 2 <= 102 / 100) by nra. assert (0 <= (1 + p * (1 * / 2)) ^ 2) by apply pow2_ge_0.
    assert (6 * (1 + p * (1 * / 2)) ^ 2 * i <= 7) by (apply Rle_trans with (6 * (102 / 100) * (105 / 100)); [apply Rmult_le_compat; lra|lra]). nra.
  - assert (0 <= (1 + 2 * p) ^ 2 * i <= 2). { split; [apply Rmult_le_pos; [apply pow2_ge_0|lra]|]. apply Rle_trans with (106 / 100 * (105 / 100)); [apply Rmult_le_compat; [apply pow2_ge_0|lra|nra|lra]|lra]. } nra.
  - assert (0 <= (1 + 2 * p) ^ 2 * i) by (apply Rmult_le_pos; [apply pow2_ge_0|lra]). nra.
Qed.

(** In a dilute suspension the particles only keep out of each other's way: at every
    scattering vector the structure factor is one minus number density times the
    transform of the excluded sphere, up to the square of the volume fraction. *)
Theorem C174_dilute : forall phi qd, 0 < phi <= 1 / 100 -> 0 < qd ->
  exists S, factor_py qd phi = Some S
    /\ Rabs (S - (1 - hs_density phi * radial_transform (fun _ => 1) qd)) <= 310 * phi ^ 2 /\ Rabs (S - 1) <= 12 * phi.
Proof.
  intros p q Hp Hq. destruct (factor_py_value q p Hq ltac:(lra)) as [Pos E]. eexists. split; [exact E|].
  destruct (poly_int q Hq 1 0 0) as [g Hg]. destruct (poly_int q Hq (c0 p) (c1 p) (c3 p)) as [c Hc].
  assert (Ec : py_c q p = 24 * p * c) by (rewrite (py_c_integral q p) by lra; now rewrite (int_same q p c Hc)).
  assert (Eg : hs_density p * radial_transform (fun _ => 1) q = 24 * p * g).
  { unfold hs_density, radial_transform. replace (RInt _ 0 1) with g.
    - pose proof PI_RGT_0. field. lra.
    - symmetry. apply is_RInt_unique. refine (is_RInt_ext _ _ _ _ _ _ Hg). intros r Hr. rewrite Rmin_left, Rmax_right in Hr by lra. unfold kern. match goal with |- @eq _ ?a ?b => change (@eq R a b) end. field. lra. }
  destruct (coeffs p Hp) as (K0 & K1 & K3).
  assert (B1 : Rabs g <= 1 / 3).
  { apply (int_bound _ g 1 Hg). intros r Hr. pose proof (kern_bound q r Hq Hr). replace (kern q r * (1 + 0 * r + 0 * r ^ 3)) with (kern q r) by ring. lra. }
  assert (Hs : is_RInt (fun r => kern q r * ((c0 p + 1) + c1 p * r + c3 p * r ^ 3)) 0 1 (c + g)).
  { refine (is_RInt_ext _ _ _ _ _ _ (is_RInt_plus _ _ _ _ _ _ Hc Hg)). intros r _. unfold plus. cbn. ring. }
  assert (B2 : Rabs (c + g) <= 17 * p / 3).
  { apply (int_bound _ _ (17 * p) Hs). intros r Hr. pose proof (kern_bound q r Hq Hr) as B. rewrite Rabs_mult, Rmult_comm. apply Rmult_le_compat; try apply Rabs_pos; [|exact B].
    assert (0 <= r ^ 3 <= 1) by (split; [apply pow_le; lra|]; assert (0 <= r * r <= 1) by nra; simpl; nra). apply Rabs_le. split; nra. }
  rewrite Ec in *. rewrite Eg. apply Rabs_le_between in B1, B2. set (x := 24 * p * c) in *. set (y := 24 * p * g) in *.
  assert (Y : - (8 * p) <= y <= 8 * p) by (unfold y; nra). assert (XY : - (136 * p ^ 2) <= x + y <= 136 * p ^ 2) by (unfold x, y; simpl; nra).
  assert (P2 : 0 <= p ^ 2 <= p / 100) by (simpl; nra). assert (X : - (10 * p) <= x <= 10 * p) by lra.
  assert (EQ : 1 / (1 - x) = 1 + x + x ^ 2 / (1 - x)) by (field; lra).
  assert (XX : 0 <= x ^ 2 <= 100 * p ^ 2) by (simpl; split; nra).
  assert (R2 : 0 <= x ^ 2 / (1 - x) <= 120 * p ^ 2).
  { split; [apply Rmult_le_pos; [lra|left; apply Rinv_0_lt_compat; lra]|]. apply (Rmult_le_reg_r (1 - x)); [lra|]. unfold Rdiv. rewrite Rmult_assoc, Rinv_l, Rmult_1_r by lra. nra. }
  rewrite EQ. split; apply Rabs_le; split; lra.
Qed.
Print Assumptions C174_dilute.

(** One per cent of spheres: the forward structure factor is below one by about 8
    times the volume fraction. *)
Example C174_case : pressure (1 / 2) = 7 /\ (exists S, factor_py 1 (1 / 100) = Some S /\ Rabs (S - 1) <= 12 / 100).
Proof.
  split; [unfold pressure; field|]. destruct (C174_dilute (1 / 100) 1 ltac:(lra) ltac:(lra)) as (S & E & _ & B). exists S. split; [exact E|lra].
Qed.
