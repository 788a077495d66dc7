(** calc_diam_list, the levels (C62). *)
From Coq Require Import Lra Lia Psatz.
From Verif Require Import Num Spec Spec_bulk L_num M_montecarlo M_phase_func_sphere L_diam L_diam2 Properties_bulk.
Open Scope R_scope.

(** The diameters lie on the flanks of the density at 1/2, then 3/4 and 1/4,
    then 7/8, 5/8, 3/8, 1/8, ... of its maximum: pass number 2^k - 1 + j
    (0 <= j < 2^k) reads the fraction (2^(k+1) - 1 - 2 j) / 2^(k+1), and the list
    holds the table diameter whose density is closest to it on each side. *)
Theorem C62_levels_partial : forall factorial n mean pdi l k j,
  let density := size_density factorial mean ((1 - pdi ^ 2) / pdi ^ 2) in
  let table := linspace 1 (2 * mean) 600 in
  calc_diam_list factorial n mean pdi false 600 = Ok l ->
  (j < 2 ^ k)%nat -> (2 ^ k - 1 + j < n / 2)%nat -> (forall g, In g table -> 0 < density g) ->
  exists d d1 d2, In d1 l /\ In d2 l /\ most_likely density table d
    /\ nearest_to density ((2 ^ S k - 1 - 2 * INR j) / 2 ^ S k * density d) (firstn 300 table) d1
    /\ nearest_to density ((2 ^ S k - 1 - 2 * INR j) / 2 ^ S k * density d) (skipn 300 table) d2.
Proof.
  intros factorial n mean pdi l k j density table Hl Hj Hk Hpos.
  assert (E : IZR (2 ^ Z.of_nat (S k) - 1 - 2 * Z.of_nat j) / IZR (2 ^ Z.of_nat (S k)) = (2 ^ S k - 1 - 2 * INR j) / 2 ^ S k).
  { rewrite !minus_IZR, mult_IZR, <- !pow_IZR, <- INR_IZR_INZ. reflexivity. }
  destruct (diam_list_levels factorial n mean pdi l k j Hl Hj Hk Hpos) as (d & d1 & d2 & H). rewrite E in H.
  exists d, d1, d2. exact H.
Qed.
Print Assumptions C62_levels_partial.
Example C62_levels_case : exists l, calc_diam_list (fun _ => 1) 7 100 (1 / 10) false 600 = Ok l /\ (1 < 2 ^ 1)%nat /\ (2 ^ 1 - 1 + 1 < 7 / 2)%nat.
Proof.
  destruct (C62_diameter_list_partial (fun _ => 1) 7 100 (1 / 10)) as (l & H & _). exists l. split; [exact H|]. split; cbn; lia.
Qed.
