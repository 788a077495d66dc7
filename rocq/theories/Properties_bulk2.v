(** C124: calc_scat_bulk.  Vocabulary in Spec_bulk.v and Spec_bulk2.v; the
    coefficients are stated as in C61 (Properties_bulk.v). *)
From Coq Require Import Lra Lia.
From Verif Require Import Num Spec Spec_bulk Spec_bulk2 M_phase_func_sphere L_num L_montecarlo L_montecarlo2 L_bulk L_bulk_pdf L_bulk2 Properties_bulk.
Open Scope R_scope.

(** C124.  Without propagation directions, the cosine of the scattering angle of
    trajectory [i] is the z component of its exit normal (reflection and
    transmission normals are added; one of them is zero), whatever the diameter.
    The returned phase function is the normalised mirrored kernel estimate of
    the scattered trajectories' (1 + cosine) / 2, weighted by their exit
    weights, the coefficients are those of C61 for the radius d / 2, and
    refl_indices has been overwritten by flags. *)
Theorem C124_bulk_from_positions : forall bw n rw tw ri ti nr nt phi d k lam,
  let cosine i := vz (nr i) + vz (nt i) in
  let nu i := (1 + cosine i) / 2 in
  let w := exit_weight rw tw ri ti in
  let h := bw (with_images (map nu (scattered_ones n ri ti))) (thrice (map w (scattered_ones n ri ti))) in
  0 < d -> 0 < h -> one_exit n ri ti ->
  (forall i, (i < n)%nat -> scattered_out ri ti i -> 0 < w i /\ cosine i <> 0 /\ -1 <= cosine i <= 1) ->
  (exists i, (i < n)%nat /\ scattered_out ri ti i) ->
  bulk_call bw n rw tw ri ti nr nt phi d k lam None
  = Ok (Some (tabulated (kernel_estimate h n ri ti nu w)),
        spheres_per_volume phi (d / 2) * (scattered_share n rw tw ti * (2 * PI * (d / 2) ^ 2)),
        spheres_per_volume phi (d / 2) * ((1 - out_share n rw tw) * (PI * (d / 2) ^ 2)) + (1 - phi) * (4 * PI * k / lam),
        map (fun i => if Nat.eqb (ri i) 0 then 0%nat else 1%nat) (seq 0 n)).
Proof.
  intros bw n rw tw ri ti nr nt phi d k lam cosine nu w h Hd Hh Ho Hs Hex.
  unfold bulk_call, calc_scat_bulk. cbv zeta. rewrite exit_z.
  destruct (C61_coefficients n rw tw ti phi (d / 2) k lam ltac:(lra)) as [M1 M2]. unfold coefficients in M1, M2.
  destruct (calc_mu_scat_abs (map rw (seq 0 n)) (map tw (seq 0 n)) (map ti (seq 0 n)) phi (d / 2) k lam) as [ms ma].
  cbn [fst snd] in M1, M2. rewrite M1, M2.
  destruct (pdf_value_pos bw n (fun i => cosine i * (d / 2)) (d / 2) rw tw ri ti Ho ltac:(lra)) as (h' & Eh & E); [|exact Hex|].
  { intros i Hi Hsc. destruct (Hs i Hi Hsc) as (H1 & H2 & H3). split; [exact H1|]. split; [|nra].
    apply Rmult_integral_contrapositive. split; [exact H2|lra]. }
  unfold pdf_call in E. cbn [option_map] in E. cbn [option_map]. unfold cosine in E at 1. rewrite E. cbn [bind fst snd].
  assert (Env : forall F, map (fun i => (cosine i * (d / 2) / (d / 2) + 1) / 2) F = map nu F).
  { intros F. apply map_ext. intros i. unfold nu. field. lra. }
  assert (Eh' : h' = h).
  { rewrite Eh, mirrored_bw_spec. unfold h. now rewrite !Env. }
  rewrite Eh'. f_equal. do 2 f_equal. f_equal. f_equal. rewrite <- normalise_tabulated.
  - f_equal. apply map_ext. intros t. rewrite mirrored_kernel. unfold kernel_estimate, over. f_equal. apply map_ext. intros i.
    replace ((cosine i * (d / 2) / (d / 2) + 1) / 2) with (nu i) by (unfold nu; field; lra). reflexivity.
  - intros u. apply kernel_positive; [exact Hh| |exact Hex]. intros i Hi Hsc. apply (Hs i Hi Hsc).
Qed.
Print Assumptions C124_bulk_from_positions.

(** With the z components [k i] of the directions (one entry per event), the
    cosine is the direction's component at the exit event; the exit positions
    are not used. *)
Theorem C124_bulk_from_directions : forall bw n rw tw ri ti nr nt phi d k lam kz,
  let cosine i := nth (ri i + ti i - 1) (kz i) 0 in
  let nu i := (1 + cosine i) / 2 in
  let w := exit_weight rw tw ri ti in
  let h := bw (with_images (map nu (scattered_ones n ri ti))) (thrice (map w (scattered_ones n ri ti))) in
  0 < d -> 0 < h -> one_exit n ri ti ->
  (forall i, (i < n)%nat -> scattered_out ri ti i -> 0 < w i /\ cosine i <> 0 /\ -1 <= cosine i <= 1) ->
  (exists i, (i < n)%nat /\ scattered_out ri ti i) ->
  bulk_call bw n rw tw ri ti nr nt phi d k lam (Some kz)
  = Ok (Some (tabulated (kernel_estimate h n ri ti nu w)),
        spheres_per_volume phi (d / 2) * (scattered_share n rw tw ti * (2 * PI * (d / 2) ^ 2)),
        spheres_per_volume phi (d / 2) * ((1 - out_share n rw tw) * (PI * (d / 2) ^ 2)) + (1 - phi) * (4 * PI * k / lam),
        map (fun i => if Nat.eqb (ri i) 0 then 0%nat else 1%nat) (seq 0 n)).
Proof.
  intros bw n rw tw ri ti nr nt phi d k lam kz cosine nu w h Hd Hh Ho Hs Hex.
  unfold bulk_call, calc_scat_bulk. cbv zeta. rewrite exit_z.
  destruct (C61_coefficients n rw tw ti phi (d / 2) k lam ltac:(lra)) as [M1 M2]. unfold coefficients in M1, M2.
  destruct (calc_mu_scat_abs (map rw (seq 0 n)) (map tw (seq 0 n)) (map ti (seq 0 n)) phi (d / 2) k lam) as [ms ma].
  cbn [fst snd] in M1, M2. rewrite M1, M2.
  destruct (pdf_value_kz bw n (fun i => (vz (nr i) + vz (nt i)) * (d / 2)) (d / 2) rw tw ri ti kz Ho) as (h' & Eh & E); [exact Hs|exact Hex|].
  unfold pdf_call in E. cbn [option_map] in E. cbn [option_map]. rewrite E. cbn [bind fst snd].
  assert (Env : forall F, map (fun i => (nth (ri i + ti i - 1) (kz i) 0 + 1) / 2) F = map nu F).
  { intros F. apply map_ext. intros i. unfold nu, cosine. field. }
  assert (Eh' : h' = h).
  { rewrite Eh, mirrored_bw_spec. unfold h. now rewrite !Env. }
  rewrite Eh'. f_equal. do 2 f_equal. f_equal. f_equal. rewrite <- normalise_tabulated.
  - f_equal. apply map_ext. intros t. rewrite mirrored_kernel. unfold kernel_estimate, over. f_equal. apply map_ext. intros i.
    replace ((nth (ri i + ti i - 1) (kz i) 0 + 1) / 2) with (nu i) by (unfold nu, cosine; field). reflexivity.
  - intros u. apply kernel_positive; [exact Hh| |exact Hex]. intros i Hi Hsc. apply (Hs i Hi Hsc).
Qed.
Print Assumptions C124_bulk_from_directions.

(** Hence the phase function does not depend on the diameter, the volume
    fraction, the matrix or the wavelength, and mu_scat is proportional to
    phi / d. *)
Theorem C124_phase_function_unit_free : forall bw n rw tw ri ti nr nt phi d k lam phi' d' k' lam' p ms ma after p' ms' ma' after',
  let cosine i := vz (nr i) + vz (nt i) in
  0 < d -> 0 < d' -> (forall x y, 0 < bw x y) -> one_exit n ri ti ->
  (forall i, (i < n)%nat -> scattered_out ri ti i -> 0 < exit_weight rw tw ri ti i /\ cosine i <> 0 /\ -1 <= cosine i <= 1) ->
  (exists i, (i < n)%nat /\ scattered_out ri ti i) ->
  bulk_call bw n rw tw ri ti nr nt phi d k lam None = Ok (p, ms, ma, after) ->
  bulk_call bw n rw tw ri ti nr nt phi' d' k' lam' None = Ok (p', ms', ma', after') ->
  p = p' /\ after = after' /\ ms * d * phi' = ms' * d' * phi.
Proof.
  intros bw n rw tw ri ti nr nt phi d k lam phi' d' k' lam' p ms ma after p' ms' ma' after' cosine Hd Hd' Hb Ho Hs Hex E E'.
  rewrite (C124_bulk_from_positions bw n rw tw ri ti nr nt phi d k lam Hd (Hb _ _) Ho Hs Hex) in E.
  rewrite (C124_bulk_from_positions bw n rw tw ri ti nr nt phi' d' k' lam' Hd' (Hb _ _) Ho Hs Hex) in E'.
  inversion E; subst. inversion E'; subst. split; [reflexivity|]. split; [reflexivity|].
  unfold spheres_per_volume. pose proof PI_RGT_0. field. repeat split; lra.
Qed.
Print Assumptions C124_phase_function_unit_free.

(** Two trajectories, one reflected upwards at its second event, one
    transmitted at its third. *)
Example C124_case :
  let ri i := if Nat.eqb i 0 then 2%nat else 0%nat in let ti i := if Nat.eqb i 0 then 0%nat else 3%nat in
  let w := exit_weight (fun _ => 1 / 4) (fun _ => 1 / 2) ri ti in
  let nr i := if Nat.eqb i 0 then (0, 3 / 5, - 4 / 5) : vec else (0, 0, 0) in
  let nt i := if Nat.eqb i 0 then (0, 0, 0) : vec else (0, 3 / 5, 4 / 5) in
  let cosine i := vz (nr i) + vz (nt i) in
  one_exit 2 ri ti /\ scattered_ones 2 ri ti = [0%nat; 1%nat]
  /\ (forall i, (i < 2)%nat -> scattered_out ri ti i -> 0 < w i /\ cosine i <> 0 /\ -1 <= cosine i <= 1)
  /\ (exists i, (i < 2)%nat /\ scattered_out ri ti i).
Proof.
  cbv zeta. split; [|split; [reflexivity|split]].
  - intros [|[|i]] H; cbn; try lia; auto.
  - intros [|[|i]] H _; try lia; unfold exit_weight; cbn; repeat split; try lra; apply Rlt_not_eq || apply Rgt_not_eq; lra.
  - exists 0%nat. split; [lia|]. left. cbn. lia.
Qed.
