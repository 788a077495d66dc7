(** Properties of bulk films of structured spheres (phase_func_sphere.py): C61,
    C62, C92-C100.  The vocabulary is in Spec_bulk.v, the code's model in
    M_phase_func_sphere.v. *)
From Coq Require Import Lra Lia.
From Verif Require Import Num Spec Spec_bulk M_phase_func_sphere L_num L_montecarlo L_bulk L_bulk_pdf L_diam.
Open Scope R_scope.

Section Coefficients.
Context (n : nat) (refl trans : nat -> R) (ti : nat -> nat) (phi r k lam : R).
(** calc_mu_scat_abs on [n] trajectories given by functions. *)
Definition coefficients : R * R :=
  calc_mu_scat_abs (map refl (seq 0 n)) (map trans (seq 0 n)) (map ti (seq 0 n)) phi r k lam.
(** The share of the light that was scattered out of the sphere. *)
Definition scattered_share : R := over n (fun i => refl i + (if Nat.eqb (ti i) 1 then 0 else trans i)).
(** The share of the light that left the sphere. *)
Definition out_share : R := over n (fun i => refl i + trans i).
End Coefficients.

(** C61.  The scattering coefficient is density x scattered share x 2 pi r^2;
    the absorption coefficient adds the absorbed share of the spheres and the
    matrix between them. *)
Theorem C61_coefficients : forall n refl trans ti phi r k lam, 0 < r ->
  fst (coefficients n refl trans ti phi r k lam)
    = spheres_per_volume phi r * (scattered_share n refl trans ti * (2 * PI * r ^ 2))
  /\ snd (coefficients n refl trans ti phi r k lam)
    = spheres_per_volume phi r * ((1 - out_share n refl trans) * (PI * r ^ 2))
      + (1 - phi) * (4 * PI * k / lam).
Proof.
  intros n refl trans ti phi r k lam Hr. unfold coefficients. rewrite mu_value by exact Hr. cbn [fst snd].
  unfold scattered_share, out_share, spheres_per_volume. pose proof PI_RGT_0. set (x := 4 * PI * k / lam). split; field; repeat split; lra.
Qed.
Print Assumptions C61_coefficients.

Theorem C61_nonnegative : forall n refl trans ti phi r k lam, 0 < r -> 0 < lam -> 0 <= k -> 0 <= phi <= 1 ->
  (forall i, (i < n)%nat -> 0 <= refl i /\ 0 <= trans i) -> out_share n refl trans <= 1 ->
  0 <= fst (coefficients n refl trans ti phi r k lam) <= 3 * phi / (2 * r)
  /\ 0 <= snd (coefficients n refl trans ti phi r k lam).
Proof.
  intros n refl trans ti phi r k lam Hr Hl Hk Hp Hn Ho. unfold coefficients. rewrite mu_value by exact Hr. cbn [fst snd].
  pose proof PI_RGT_0 as Hpi. unfold out_share in Ho.
  assert (A : 0 <= 3 * phi / (2 * r)) by (apply Rmult_le_pos; [lra|left; apply Rinv_0_lt_compat; lra]).
  assert (B : 0 <= 3 * phi / (4 * r)) by (apply Rmult_le_pos; [lra|left; apply Rinv_0_lt_compat; lra]).
  assert (S0 : 0 <= over n (fun i => refl i + (if Nat.eqb (ti i) 1 then 0 else trans i))).
  { apply over_nonneg. intros i Hi. destruct (Hn i Hi). destruct (Nat.eqb (ti i) 1); lra. }
  assert (S1 : over n (fun i => refl i + (if Nat.eqb (ti i) 1 then 0 else trans i)) <= over n (fun i => refl i + trans i)).
  { assert (0 <= over n (fun i => (refl i + trans i) + - (refl i + (if Nat.eqb (ti i) 1 then 0 else trans i)))).
    { apply over_nonneg. intros i Hi. destruct (Hn i Hi). destruct (Nat.eqb (ti i) 1); lra. }
    assert (E : forall g h, over n (fun i => g i + - h i) = over n g - over n h).
    { intros g h. unfold over. induction (seq 0 n) as [|x l IH]; cbn; [ring|]. rewrite IH. ring. }
    rewrite E in H. lra. }
  split; [split|].
  - apply Rmult_le_pos; assumption.
  - rewrite <- (Rmult_1_r (3 * phi / (2 * r))) at 2. apply Rmult_le_compat_l; lra.
  - assert (0 <= 3 * phi / (4 * r) * (1 - over n (fun i => refl i + trans i))) by (apply Rmult_le_pos; lra).
    assert (0 <= 4 * PI * k / lam * (1 - phi)).
    { apply Rmult_le_pos; [|lra]. apply Rmult_le_pos; [nra|left; now apply Rinv_0_lt_compat]. }
    lra.
Qed.
Print Assumptions C61_nonnegative.

Theorem C61_no_absorption : forall n refl trans ti phi r lam, 0 < r -> out_share n refl trans = 1 ->
  snd (coefficients n refl trans ti phi r 0 lam) = 0.
Proof.
  intros n refl trans ti phi r lam Hr Ho. destruct (C61_coefficients n refl trans ti phi r 0 lam Hr) as [_ ->].
  rewrite Ho. unfold Rdiv. ring.
Qed.
Print Assumptions C61_no_absorption.

Example C61_case :
  let refl i := if Nat.eqb i 0 then 1 / 4 else 0 in let trans i := if Nat.eqb i 0 then 0 else 1 / 2 in
  (forall i, (i < 2)%nat -> 0 <= refl i /\ 0 <= trans i) /\ out_share 2 refl trans = 3 / 4
  /\ fst (coefficients 2 refl trans (fun i => i) (1 / 2) 1 0 1) = 3 / 16.
Proof.
  cbv zeta. split; [intros [|[|i]] H; cbn; try lia; lra|]. split; [unfold out_share, over; cbn; lra|].
  rewrite (proj1 (C61_coefficients _ _ _ _ _ 1 _ _ ltac:(lra))). unfold spheres_per_volume, scattered_share, over. cbn.
  pose proof PI_RGT_0. field. lra.
Qed.

(** C92.  The documentation gives the absorption cross section as the absorbed
    fraction x 2 pi r^2, the same area as for scattering; the code uses pi r^2,
    so half of the documented value is returned whenever the spheres absorb. *)
Theorem C92_absorption_area_refuted : forall n refl trans ti phi r lam,
  0 < r -> 0 < phi -> out_share n refl trans < 1 ->
  let documented := spheres_per_volume phi r * ((1 - out_share n refl trans) * (2 * PI * r ^ 2)) in
  2 * snd (coefficients n refl trans ti phi r 0 lam) = documented
  /\ snd (coefficients n refl trans ti phi r 0 lam) <> documented.
Proof.
  intros n refl trans ti phi r lam Hr Hp Ho. cbv zeta.
  destruct (C61_coefficients n refl trans ti phi r 0 lam Hr) as [_ ->].
  replace (4 * PI * 0 / lam) with 0 by (unfold Rdiv; ring). pose proof PI_RGT_0 as Hpi.
  assert (0 < spheres_per_volume phi r).
  { unfold spheres_per_volume. apply Rdiv_lt_0_compat; [exact Hp|]. apply Rmult_lt_0_compat; [lra|now apply pow_lt]. }
  assert (0 < (1 - out_share n refl trans) * (PI * r ^ 2)).
  { apply Rmult_lt_0_compat; [lra|]. apply Rmult_lt_0_compat; [exact Hpi|now apply pow_lt]. }
  split; [ring|]. nra.
Qed.
Print Assumptions C92_absorption_area_refuted.
Example C92_case : out_share 1 (fun _ => 1 / 4) (fun _ => 1 / 4) < 1.
Proof. unfold out_share, over. cbn. lra. Qed.

(** C62.  The default table of 600 points: never an error, [2*(n/2)+1]
    diameters (hence at least [n]), in increasing order, all on the table from
    1 to twice the mean; the table point of largest density is one of them,
    and (for two or more) the points nearest to half of that density in the
    lower and in the upper half of the table. *)
Theorem C62_diameter_list_partial : forall factorial n mean pdi,
  let density := size_density factorial mean ((1 - pdi ^ 2) / pdi ^ 2) in
  let table := linspace 1 (2 * mean) 600 in
  exists l, calc_diam_list factorial n mean pdi false 600 = Ok l
    /\ length l = (2 * (n / 2) + 1)%nat /\ (n <= length l <= n + 1)%nat
    /\ ascending l /\ incl l table
    /\ (exists d, In d l /\ most_likely density table d)
    /\ ((2 <= n)%nat -> (forall g, In g table -> 0 < density g) ->
        exists d d1 d2, In d1 l /\ In d2 l /\ most_likely density table d
          /\ nearest_to density (density d / 2) (firstn 300 table) d1
          /\ nearest_to density (density d / 2) (skipn 300 table) d2).
Proof.
  intros factorial n mean pdi density table.
  destruct (diam_list_ok factorial n mean pdi) as (l & E & L & A & I & M & H).
  exists l. split; [exact E|]. split; [exact L|]. split; [|split; [exact A|split; [exact I|split; [exact M|exact H]]]].
  pose proof (Nat.div_mod n 2 ltac:(lia)). pose proof (Nat.mod_upper_bound n 2 ltac:(lia)). lia.
Qed.
Print Assumptions C62_diameter_list_partial.

(** "Without repetition" is false: there are not enough table points. *)
Theorem C62_repeats_refuted : forall factorial n mean pdi l, (600 <= n)%nat ->
  calc_diam_list factorial n mean pdi false 600 = Ok l -> ~ NoDup l.
Proof. exact diam_list_repeats. Qed.
Print Assumptions C62_repeats_refuted.
Example C62_repeats_case : exists l, calc_diam_list (fun _ => 1) 600 100 (1 / 10) false 600 = Ok l.
Proof. destruct (C62_diameter_list_partial (fun _ => 1) 600 100 (1 / 10)) as (l & H & _). exists l. exact H. Qed.

(** Another table size: num_pdf_points up to 300 fails for two or more
    diameters, because the upper half is read at the fixed offset 300. *)
Theorem C62_table_size_refuted : forall factorial n mean pdi npts,
  (2 <= npts <= 300)%nat -> (2 <= n)%nat ->
  calc_diam_list factorial n mean pdi false npts = Err IndexError.
Proof. exact diam_list_small_table. Qed.
Print Assumptions C62_table_size_refuted.

(** equal_spacing=True: strictly increasing diameters from 1/100 of to twice
    the mean, but one too few when num_diam is a multiple of 4 (and one too
    many for num_diam = 1 and for other even numbers). *)
Theorem C62_equal_spacing_refuted : forall factorial n mean pdi npts, 0 < mean ->
  exists l, calc_diam_list factorial n mean pdi true npts = Ok l
    /\ ascending l /\ NoDup l /\ Forall (fun d => mean / 100 <= d <= 2 * mean) l
    /\ (Nat.Odd n -> (3 <= n)%nat -> length l = n)
    /\ (n = 1%nat -> length l = 2%nat)
    /\ ((4 <= n)%nat -> (n mod 4 = 0)%nat -> length l = (n - 1)%nat)
    /\ ((n mod 4 = 2)%nat -> length l = (n + 1)%nat).
Proof.
  intros factorial n mean pdi npts Hm. destruct (diam_list_equal_ok factorial n mean pdi npts) as (l & E).
  exists l. split; [exact E|]. destruct (diam_list_equal factorial n mean pdi npts l Hm E) as (A & N & F & L).
  split; [exact A|]. split; [exact N|]. split; [exact F|]. rewrite L.
  split; [|split; [|split]].
  - intros [k ->] H. rewrite (proj2 (Nat.eqb_neq _ 0)) by lia. rewrite (proj2 (Nat.eqb_neq _ 1)) by lia.
    assert (M : ((2 * k + 1) mod 4 = 1 \/ (2 * k + 1) mod 4 = 3)%nat).
    { pose proof (Nat.mod_upper_bound (2 * k + 1) 4). pose proof (Nat.div_mod (2 * k + 1) 4). lia. }
    destruct M as [-> | ->]; reflexivity.
  - intros ->. reflexivity.
  - intros H1 H2. rewrite H2. rewrite (proj2 (Nat.eqb_neq _ 0)) by lia. rewrite (proj2 (Nat.eqb_neq _ 1)) by lia. reflexivity.
  - intros H2. rewrite H2. destruct n as [|[|n]]; [discriminate|discriminate|]. reflexivity.
Qed.
Print Assumptions C62_equal_spacing_refuted.

(** C97.  "The list does not depend on the unit the mean is given in" is false:
    the table starts at the bare number 1.  A mean below 1/2 (say 0.25
    micrometres) yields diameters that are all at least twice the mean, and the
    list for the same mean in a smaller unit is another one. *)
Theorem C97_units_refuted : forall factorial n mean pdi s, (2 <= n)%nat ->
  0 < mean < 1 / 2 -> 1 / 2 < s * mean ->
  exists l l', calc_diam_list factorial n mean pdi false 600 = Ok l
    /\ calc_diam_list factorial n (s * mean) pdi false 600 = Ok l'
    /\ (forall d, In d l -> 2 * mean <= d)
    /\ l' <> map (fun d => s * d) l.
Proof.
  intros factorial n mean pdi s Hn Hm Hs.
  destruct (diam_list_ok factorial n mean pdi) as (l & E & _).
  destruct (diam_list_ok factorial n (s * mean) pdi) as (l' & E' & _).
  exists l, l'. split; [exact E|]. split; [exact E'|].
  exact (diam_list_units factorial n mean pdi s l l' Hn Hm Hs E E').
Qed.
Print Assumptions C97_units_refuted.
Example C97_case : 0 < 1 / 4 < 1 / 2 /\ 1 / 2 < 1000 * (1 / 4).
Proof. lra. Qed.

(** C93.  The phase function of a sphere: whatever the trajectories, a returned
    phase function has 200 positive values adding up to 1. *)
Theorem C93_phase_function_distribution : forall bw z radius rw tw ri ti kz l after,
  (forall d w, 0 < bw d w) ->
  Forall (fun x => 0 <= x) rw -> Forall (fun x => 0 <= x) tw ->
  calc_pdf bw z radius rw tw ri ti kz = Ok (Some l, after) ->
  exists q, l = map Some q /\ length q = 200%nat /\ Forall (fun x => 0 < x) q /\ total q = 1.
Proof. exact pdf_distribution. Qed.
Print Assumptions C93_phase_function_distribution.

(** It depends only on the trajectories that were scattered out. *)
Theorem C93_only_scattered : forall bw n z z' radius rw rw' tw tw' ri ti,
  one_exit n ri ti ->
  (forall i, (i < n)%nat -> scattered_out ri ti i ->
     z i = z' i /\ exit_weight rw tw ri ti i = exit_weight rw' tw' ri ti i) ->
  pdf_call bw n z radius rw tw ri ti None = pdf_call bw n z' radius rw' tw' ri ti None.
Proof. exact pdf_only_scattered. Qed.
Print Assumptions C93_only_scattered.

(** NaN is returned instead exactly when no light was scattered out away from
    the plane z = 0. *)
Theorem C93_nan : forall bw n z radius rw tw ri ti,
  one_exit n ri ti ->
  (exists after, pdf_call bw n z radius rw tw ri ti None = Ok (None, after))
  <-> forall i, (i < n)%nat -> scattered_out ri ti i -> exit_weight rw tw ri ti i <> 0 -> z i = 0.
Proof.
  intros bw n z radius rw tw ri ti Ho. split.
  - intros [after H]. now apply (pdf_nan _ _ _ _ _ _ _ _ after Ho) in H.
  - intros H. eexists. apply (pdf_nan bw n z radius rw tw ri ti _ Ho). split; [reflexivity|exact H].
Qed.
Print Assumptions C93_nan.

(** C94.  "Never fails": one trajectory leaving exactly at the equator (z = 0)
    next to one leaving elsewhere makes calc_pdf raise ValueError, and with the
    exit directions given one exit of weight zero does. *)
Theorem C94_equator_refuted : forall bw n z radius rw tw ri ti,
  one_exit n ri ti ->
  pdf_call bw n z radius rw tw ri ti None = Err ValueError
  <-> (exists i, (i < n)%nat /\ scattered_out ri ti i /\ exit_weight rw tw ri ti i <> 0 /\ z i <> 0)
      /\ (exists i, (i < n)%nat /\ scattered_out ri ti i /\ exit_weight rw tw ri ti i <> 0 /\ z i = 0).
Proof. exact pdf_equator. Qed.
Print Assumptions C94_equator_refuted.

Theorem C94_zero_weight_refuted : forall bw n z radius rw tw ri ti k,
  one_exit n ri ti ->
  (forall i, (i < n)%nat -> scattered_out ri ti i -> nth (ri i + ti i - 1) (k i) 0 <> 0) ->
  pdf_call bw n z radius rw tw ri ti (Some k) = Err ValueError
  <-> exists i, (i < n)%nat /\ scattered_out ri ti i /\ exit_weight rw tw ri ti i = 0.
Proof. exact pdf_zero_weight. Qed.
Print Assumptions C94_zero_weight_refuted.

Example C94_case : one_exit 2 (fun _ => 2%nat) (fun _ => 0%nat)
  /\ pdf_call (fun _ _ => 1) 2 INR 1 (fun _ => 1) (fun _ => 0) (fun _ => 2%nat) (fun _ => 0%nat) None = Err ValueError
  /\ pdf_call (fun _ _ => 1) 2 INR 1 (fun i => INR i) (fun _ => 0) (fun _ => 2%nat) (fun _ => 0%nat)
       (Some (fun _ => [1 / 2; 1 / 2; 1 / 2])) = Err ValueError.
Proof.
  assert (O : one_exit 2 (fun _ => 2%nat) (fun _ => 0%nat)) by (intros i Hi; now right).
  split; [exact O|]. split.
  - apply C94_equator_refuted; [exact O|]. unfold scattered_out, exit_weight. cbn.
    split; [exists 1%nat|exists 0%nat]; cbn; repeat split; try lia; try lra; left; lia.
  - apply C94_zero_weight_refuted; [exact O| |].
    + intros i Hi _. cbn. lra.
    + exists 0%nat. unfold scattered_out, exit_weight. cbn. repeat split; try lia; try lra; left; lia.
Qed.

(** C95.  "The arrays passed in are left alone" is false: calc_pdf overwrites
    refl_indices by 0/1 flags, so every later exit event is lost to the caller. *)
Theorem C95_overwrites_refuted : forall bw n z radius rw tw ri ti kz p after,
  pdf_call bw n z radius rw tw ri ti kz = Ok (p, after) ->
  after = map (fun i => if Nat.eqb (ri i) 0 then 0%nat else 1%nat) (seq 0 n)
  /\ (after = map ri (seq 0 n) <-> forall i, (i < n)%nat -> (ri i <= 1)%nat).
Proof. exact pdf_overwrites. Qed.
Print Assumptions C95_overwrites_refuted.
Example C95_case : exists p after,
  pdf_call (fun _ _ => 1) 1 (fun _ => 1) 1 (fun _ => 1) (fun _ => 0) (fun _ => 2%nat) (fun _ => 0%nat) None = Ok (p, after)
  /\ after <> [2%nat].
Proof.
  destruct (pdf_call (fun _ _ => 1) 1 (fun _ => 1) 1 (fun _ => 1) (fun _ => 0) (fun _ => 2%nat) (fun _ => 0%nat) None)
    as [[p after]|e] eqn:E.
  - exists p, after. split; [reflexivity|]. apply C95_overwrites_refuted in E as [-> _]. discriminate.
  - exfalso.
    assert (O : one_exit 1 (fun _ => 2%nat) (fun _ => 0%nat)) by (intros i Hi; now right).
    assert (Ee : e = ValueError).
    { unfold pdf_call, calc_pdf, gaussian_kde in E.
      match type of E with (match ?l with _ => _ end) = _ => destruct l as [|? ?]; [discriminate|] end.
      match type of E with bind (if ?b then _ else _) _ = _ => destruct b end; cbn [bind] in E; [now injection E|discriminate]. }
    subst e. apply C94_equator_refuted in E as [_ (i & _ & _ & _ & Hz)]; [lra|exact O].
Qed.

(** C96.  The average spacing: one sphere per d_avg-sized cell, whose volume is
    that of the sphere divided by the volume fraction. *)
Theorem C96_average_spacing : forall phi r, 0 < phi -> 0 < r ->
  0 < calc_d_avg phi r /\ phi * calc_d_avg phi r ^ 3 = (2 * r) ^ 3.
Proof. exact d_avg_cubed. Qed.
Print Assumptions C96_average_spacing.
(** In terms of spheres per volume: a sphere of diameter [d_avg] holds one. *)
Theorem C96_one_per_cell : forall phi r, 0 < phi -> 0 < r ->
  spheres_per_volume phi r * (4 / 3 * PI * (calc_d_avg phi r / 2) ^ 3) = 1.
Proof.
  intros phi r Hp Hr. destruct (d_avg_cubed phi r Hp Hr) as [_ E]. unfold spheres_per_volume.
  assert (E' : (calc_d_avg phi r) ^ 3 = 8 * r ^ 3 / phi).
  { apply Rmult_eq_reg_l with phi; [|lra]. rewrite E. field. lra. }
  replace ((calc_d_avg phi r / 2) ^ 3) with (calc_d_avg phi r ^ 3 / 8) by (field).
  rewrite E'. pose proof PI_RGT_0. field. repeat split; lra.
Qed.
Print Assumptions C96_one_per_cell.

(** C98.  The probabilities diameters are drawn with form a distribution
    proportional to the size density. *)
Theorem C98_diameter_probabilities : forall factorial pdi l mean,
  l <> [] -> (forall d, In d l -> 0 < d) -> 0 < factorial ((1 - pdi ^ 2) / pdi ^ 2) ->
  exists q, diam_prob factorial pdi l mean = map Some q
    /\ Forall (fun x => 0 <= x) q /\ total q = 1
    /\ exists c, q = map (fun d => size_density factorial mean ((1 - pdi ^ 2) / pdi ^ 2) d / c) l.
Proof.
  intros factorial pdi l mean Hn Hl Hf.
  destruct (diam_prob_dist factorial pdi l mean Hn Hl Hf) as (q & E & L & F & T).
  exists q. split; [exact E|]. split; [exact F|]. split; [exact T|].
  unfold diam_prob in E. rewrite size_distr_map in E.
  set (f := size_density factorial mean ((1 - pdi ^ 2) / pdi ^ 2)) in *.
  unfold M_montecarlo.normalise in E.
  destruct (Reqb (Rsum (map f l)) 0) eqn:E0.
  - destruct l as [|x l]; [contradiction|]. destruct q as [|y q]; [discriminate|]. discriminate.
  - exists (Rsum (map f l)). rewrite map_map in E. clear - E. revert q E. generalize (Rsum (map f l)) as c. intros c.
    induction l as [|x l IH]; intros [|y q] E; try discriminate; [reflexivity|]. cbn in E. injection E as E1 E2.
    cbn. rewrite E1. f_equal. now apply IH.
Qed.
Print Assumptions C98_diameter_probabilities.
Example C98_case : forall d, In d [100; 200] -> 0 < d.
Proof. intros d [<-|[<-|[]]]; lra. Qed.

(** C99.  A scattering event of the polydisperse model: its angle is drawn from
    the phase function of the type of the particle, its step is exponential
    with that type's coefficient. *)
Theorem C99_poly_event : forall nang mu params u c v j,
  length mu = length params -> last_type params v j ->
  0 < nth j mu 0 -> 0 <= u j < 1 ->
  fst (sample_poly nang mu params u c v) = nth (c j) (linspace (1 / 100) PI nang) 0
  /\ forall l, l <= snd (sample_poly nang mu params u c v) <-> 1 - exp (- (nth j mu 0 * l)) <= u j.
Proof.
  intros nang mu params u c v j Hl Ht Hm Hu. rewrite (sample_poly_type nang mu params u c v j Hl Ht).
  split; [reflexivity|]. intros l. cbn [snd].
  replace (- ln (1 - u j) * (1 / nth j mu 0)) with (step_of (nth j mu 0) (u j)) by (unfold step_of; field; lra).
  now apply step_inverse_cdf.
Qed.
Print Assumptions C99_poly_event.
Theorem C99_poly_angles : forall p, Forall (fun x => 0 <= x) p ->
  total (map2 (fun x t => x * sin t) p (linspace (1 / 100) PI (length p))) <> 0 ->
  exists q, poly_prob p = map Some q /\ length q = length p /\ Forall (fun x => 0 <= x) q /\ total q = 1.
Proof. exact poly_prob_dist. Qed.
Print Assumptions C99_poly_angles.
(** A parameter outside the list is not reported: the photon stops. *)
Theorem C99_unknown_parameter_refuted : forall nang mu params u c v,
  (forall k, (k < length params)%nat -> nth k params 0 <> v) ->
  sample_poly nang mu params u c v = (0, 0).
Proof. exact sample_poly_none. Qed.
Print Assumptions C99_unknown_parameter_refuted.
Example C99_case : last_type [100; 200] 200 1 /\ (forall k, (k < 2)%nat -> nth k [100; 200] 0 <> 300).
Proof.
  split.
  - split; [cbn; lia|]. split; [reflexivity|]. intros k H1 H2. cbn in H2. lia.
  - intros [|[|k]] H; cbn; try lia; lra.
Qed.

(** C100.  Exit positions lie on the sphere, in the direction of the normal. *)
Theorem C100_exit_on_sphere : forall nr nt radius i a b,
  nth_error nr i = Some a -> nth_error nt i = Some b ->
  (dot a a = 1 /\ b = vzero) \/ (a = vzero /\ dot b b = 1) ->
  exists p, nth_error (get_exit_pos nr nt radius) i = Some p /\ dot p p = radius ^ 2
    /\ p = vscale radius (vadd a b).
Proof. exact exit_pos_on_sphere. Qed.
Print Assumptions C100_exit_on_sphere.
Example C100_case : dot (0, 0, -1) (0, 0, -1) = 1 /\ dot (3 / 5, 0, 4 / 5) (3 / 5, 0, 4 / 5) = 1.
Proof. unfold dot; cbn. lra. Qed.
