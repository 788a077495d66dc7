(** A film of structured spheres, from a run on one sphere to the reflectance
    of the film: C147. *)
From Coq Require Import Lra Lia.
From Verif Require Import Num Spec Spec_scatter Spec_detector Spec_events Spec_bulk Spec_bulk2
  L_num L_montecarlo2 L_reflection L_trapezoid L_sizes L_sampling L_draws L_slots L_simulation L_bulk L_bulk_pdf L_bulk2 L_bulk3
  M_init M_montecarlo M_detector M_scat M_simulation M_phase_func_sphere M_workflow
  Properties_scat Properties_simulation Properties_bulk Properties_bulk2.
Open Scope R_scope.

Lemma as_map (l : list R) n : length l = n -> l = map (fun i => nth i l 0) (seq 0 n).
Proof.
  intros <-. induction l as [|a l IH]; [reflexivity|]. cbn [length seq map nth]. f_equal.
  rewrite IH at 1. rewrite <- seq_shift, map_map. reflexivity.
Qed.
Lemma as_map_nat (l : list nat) n : length l = n -> l = map (fun i => nth i l 0%nat) (seq 0 n).
Proof.
  intros <-. induction l as [|a l IH]; [reflexivity|]. cbn [length seq map nth]. f_equal.
  rewrite IH at 1. rewrite <- seq_shift, map_map. reflexivity.
Qed.

(** Drawing from a positive table of 200 values succeeds. *)
Lemma draw_tabulated (f : R -> R) nevents ntraj up ut : (forall u, 0 < f u) ->
  (forall e i, 0 <= up e i < 1 /\ 0 <= ut e i < 1) ->
  exists q rows, get_all (tabulated f) = Some q /\ sample_angles_1d nevents ntraj q (1 / 100) up ut = Ok rows.
Proof.
  intros Hf Hu. pose proof PI2_3_2 as HP. unfold tabulated. rewrite get_all_somes. set (g := linspace (1 / 100) PI 200).
  set (s := total (map (fun t => f ((1 + cos t) / 2)) g)).
  assert (Lg : length g = 200%nat) by apply linspace_length.
  assert (Hs : 0 < s).
  { unfold s, g, linspace. rewrite map_map. apply (L_draws.total_pos_at (fun i => f ((1 + cos (1 / 100 + INR i * ((PI - 1 / 100) / INR (200 - 1)))) / 2)) 200 0); [|lia|apply Hf].
    intros i Hi. left. apply Hf. }
  destruct (L_draws.draws_1d (fun t => f ((1 + cos t) / 2)) s (1 / 100) 200 nevents ntraj up ut) as (l & El & _); try assumption; try lra.
  - intros t _. left. apply Hf.
  - exists (1 / 100). split; [|split; [lra|apply Hf]]. unfold linspace. left. cbn. lra.
  - do 2 eexists. split; [reflexivity|]. exact El.
Qed.

(** C147.  Let [n] trajectories of a run on one sphere leave it with the shares
    [rw i] and [tw i] at the events [ri i] and [ti i] (0 for none), with exit
    normals [nr i], [nt i]; the shares add up to at most 1, those of the
    trajectories scattered out of the sphere are positive and none of these
    leaves exactly sideways.  If there is such a trajectory, calc_scat_bulk
    gives a positive scattering coefficient and a non-negative absorption
    coefficient, and the calculation for the film (sample_angles, sample_step,
    trajectories, calc_refl_trans), whatever its random draws, does not raise;
    its reflectance and transmittance, if numbers, are fractions, and add up to
    1 for the plain call that detects everything if nothing is absorbed. *)
Theorem C147_bulk_film : forall bw n rw tw ri ti nr nt phi d k lam nevents ntraj spot tmin tmax pmin pmax P D u_phi u_theta,
  let cosine i := vz (nr i) + vz (nt i) in
  (forall x y, 0 < bw x y) -> 0 < d -> 0 < lam -> 0 <= k -> 0 < phi <= 1 ->
  one_exit n ri ti ->
  (forall i, (i < n)%nat -> 0 <= rw i /\ 0 <= tw i) -> over n (fun i => rw i + tw i) <= 1 ->
  (forall i, (i < n)%nat -> scattered_out ri ti i ->
     0 < exit_weight rw tw ri ti i /\ cosine i <> 0 /\ -1 <= cosine i <= 1) ->
  (exists i, (i < n)%nat /\ scattered_out ri ti i) ->
  (forall e i, 0 <= u_phi e i < 1 /\ 0 <= u_theta e i < 1) ->
  (0 < nevents)%nat -> (0 < ntraj)%nat -> 0 < spot ->
  in01 (d_l0 D) -> in01 (d_l1 D) -> (forall n i, 0 <= d_u D n i < 1) ->
  valid_params P ntraj -> 0 < p_nmedium P <= p_nsample P ->
  p_kz0rot P = None -> p_kz0refl P = None -> p_boundary P = film -> p_run P = false ->
  exists p ms ma after, bulk_call bw n rw tw ri ti nr nt phi d k lam None = Ok (p, ms, ma, after)
    /\ 0 < ms /\ 0 <= ma
    /\ exists oo, bulk_film_run nevents ntraj spot tmin tmax pmin pmax P D u_phi u_theta (p, ms, ma, after) = Ok oo
    /\ forall r, oo = Some r -> 0 <= o_refl r /\ 0 <= o_trans r /\ o_refl r + o_trans r <= 1
         /\ (plain P -> full_detection P -> k = 0 -> over n (fun i => rw i + tw i) = 1 -> o_refl r + o_trans r = 1).
Proof.
  intros bw n rw tw ri ti nr nt phi d k lam nev ntraj spot tmin tmax pmin pmax P D up ut cosine
    Hbw Hd Hl Hk Hphi Ho Hw Hout Hsc Hex Hu H1 H2 H3 H4 H5 H6 H7 H8 K1 K2 Hb Hr.
  rewrite (C124_bulk_from_positions bw n rw tw ri ti nr nt phi d k lam Hd (Hbw _ _) Ho Hsc Hex).
  destruct (C61_coefficients n rw tw ti phi (d / 2) k lam ltac:(lra)) as [M1 M2].
  destruct (C61_nonnegative n rw tw ti phi (d / 2) k lam ltac:(lra) Hl Hk ltac:(lra) Hw Hout) as [_ Hma].
  rewrite M2 in Hma.
  set (ms := spheres_per_volume phi (d / 2) * (scattered_share n rw tw ti * (2 * PI * (d / 2) ^ 2))).
  set (ma := spheres_per_volume phi (d / 2) * ((1 - out_share n rw tw) * (PI * (d / 2) ^ 2)) + (1 - phi) * (4 * PI * k / lam)) in *.
  pose proof PI_RGT_0 as HP.
  assert (Hms : 0 < ms).
  { assert (0 < (d / 2) ^ 3) by (apply pow_lt; lra). assert (0 < (d / 2) ^ 2) by (apply pow_lt; lra).
    unfold ms. apply Rmult_lt_0_compat; [apply Rdiv_lt_0_compat; [lra|nra]|]. apply Rmult_lt_0_compat; [|nra].
    unfold scattered_share, over. destruct Hex as (i0 & Hi0 & S0).
    apply (L_draws.total_pos_at (fun i => rw i + (if Nat.eqb (ti i) 1 then 0 else tw i)) n i0); [|exact Hi0|].
    - intros i Hi. destruct (Hw i Hi). destruct (Nat.eqb (ti i) 1); lra.
    - destruct (Hsc i0 Hi0 S0) as [W _]. destruct (Hw i0 Hi0). unfold exit_weight in W. destruct (Ho i0 Hi0) as [E|E].
      + rewrite E in W. cbn in W. destruct S0 as [S0|S0]; [congruence|].
        replace (Nat.eqb (ti i0) 1) with false by (symmetry; apply Nat.eqb_neq; lia). lra.
      + rewrite E. cbn. destruct S0 as [S0|S0]; [|lia]. apply Nat.eqb_neq in S0. rewrite S0 in W. lra. }
  do 4 eexists. split; [reflexivity|]. split; [exact Hms|]. split; [exact Hma|].
  set (f := kernel_estimate _ _ _ _ _ _).
  destruct (draw_tabulated f nev ntraj up ut) as (q & rows & Eq & Er); [|exact Hu|].
  { intros u. unfold f. apply kernel_positive; [apply Hbw| |exact Hex]. intros i Hi Hs. apply (Hsc i Hi Hs). }
  unfold bulk_film_run. rewrite Eq, Er. cbn [bind].
  destruct (C103_film_run nev ntraj spot tmin tmax pmin pmax ms (set_muabs P ma) (set_angles D rows)) as (oo & Eoo & Q); try assumption.
  exists oo. split; [exact Eoo|]. intros r Err. destruct (Q r Err) as (A1 & A2 & A3 & A4).
  split; [exact A1|]. split; [exact A2|]. split; [exact A3|]. intros Hpl Hfd Hk0 Hone. apply A4; [exact Hpl|exact Hfd|].
  cbn. unfold ma. rewrite Hk0. change (out_share n rw tw) with (over n (fun i => rw i + tw i)). rewrite Hone. unfold Rdiv. ring.
Qed.
Print Assumptions C147_bulk_film.

(** The two calculations chained: a run on a sphere (C103), whose results go to
    calc_scat_bulk unchanged, with any exit normals. *)
Theorem C147_from_sphere_run : forall bw nev n spot0 mu Ps Ds nr nt phi d k lam
    nevents ntraj spot tmin tmax pmin pmax P D u_phi u_theta,
  let cosine i := vz (nr i) + vz (nt i) in
  (0 < nev)%nat -> (0 < n)%nat -> 0 < p_thickness Ps -> 0 < spot0 <= p_thickness Ps -> 0 < mu -> 0 <= p_muabs Ps ->
  (forall i, 0 < d_l0 Ds i < 1) -> (forall n i, 0 <= d_u Ds n i < 1) -> (forall d i n, 0 <= d_rstep Ds d i n) ->
  valid_params Ps n -> plain Ps -> 0 < p_nmedium Ps <= p_nsample Ps -> p_boundary Ps = sphere ->
  (forall x y, 0 < bw x y) -> 0 < d -> 0 < lam -> 0 <= k -> 0 < phi <= 1 ->
  (forall e i, 0 <= u_phi e i < 1 /\ 0 <= u_theta e i < 1) ->
  (0 < nevents)%nat -> (0 < ntraj)%nat -> 0 < spot ->
  in01 (d_l0 D) -> in01 (d_l1 D) -> (forall n i, 0 <= d_u D n i < 1) ->
  valid_params P ntraj -> 0 < p_nmedium P <= p_nsample P ->
  p_kz0rot P = None -> p_kz0refl P = None -> p_boundary P = film -> p_run P = false ->
  exists o, sphere_run nev n spot0 mu Ps Ds = Ok (Some o)
    /\ let rw i := nth i (o_refl_per o) 0 in let tw i := nth i (o_trans_per o) 0 in
       let ri i := nth i (o_refl_i o) 0%nat in let ti i := nth i (o_trans_i o) 0%nat in
       (forall i, (i < n)%nat -> scattered_out ri ti i ->
          0 < exit_weight rw tw ri ti i /\ cosine i <> 0 /\ -1 <= cosine i <= 1) ->
       (exists i, (i < n)%nat /\ scattered_out ri ti i) ->
       exists oo, bulk_workflow bw o (map nr (seq 0 n)) (map nt (seq 0 n)) phi d k lam
                    nevents ntraj spot tmin tmax pmin pmax P D u_phi u_theta = Ok oo
       /\ forall r, oo = Some r -> 0 <= o_refl r /\ 0 <= o_trans r /\ o_refl r + o_trans r <= 1
            /\ (full_detection Ps -> p_muabs Ps = 0 -> k = 0 ->
                plain P -> full_detection P -> o_refl r + o_trans r = 1).
Proof.
  intros bw nev n spot0 mu Ps Ds nr nt phi d k lam nevents ntraj spot tmin tmax pmin pmax P D up ut cosine
    A1 A2 A3 A4 A5 A6 A7 A8 A9 A10 A11 A12 A13 Hbw Hd Hl Hk Hphi Hu B1 B2 B3 B4 B5 B6 B7 B8 B9 B10 B11 B12.
  destruct (sphere_run_full nev n spot0 mu Ps Ds A1 A2 A3 A4 A5 A6 A7 A8 A9 A10 A11 A12 A13)
    as (o & E & R0 & T0 & RT & Hone & ER & ET & LR & LT & HP & T & Hwf & ET').
  destruct (outcome_indices _ _ _ _ _ _ _ _ A10 (proj1 A11) Hwf ET') as (LI & LJ & Ho).
  exists o. split; [exact E|]. intros rw tw ri ti Hsc Hex.
  assert (EO : over n (fun i => rw i + tw i) = o_refl o + o_trans o).
  { rewrite ER, ET, (as_map _ n LR), (as_map _ n LT). unfold over. fold rw tw.
    generalize (seq 0 n). intros l. induction l as [|i l IH]; [cbn; lra|]. cbn [map total]. rewrite IH. ring. }
  destruct (C147_bulk_film bw n rw tw ri ti nr nt phi d k lam nevents ntraj spot tmin tmax pmin pmax P D up ut)
    as (p & ms & ma & after & Eb & Hms & Hma & oo & Eoo & Q); try assumption.
  { intros i Hi. destruct (HP i Hi) as (H & H' & _). auto. }
  { rewrite EO. exact RT. }
  exists oo. split.
  - unfold bulk_workflow. unfold bulk_call in Eb. cbn [option_map] in Eb.
    rewrite (as_map _ n LR), (as_map _ n LT), (as_map_nat _ n LI), (as_map_nat _ n LJ). fold rw tw ri ti.
    rewrite Eb. cbn [bind]. exact Eoo.
  - intros r Er. destruct (Q r Er) as (Q1 & Q2 & Q3 & Q4). do 3 (split; [assumption|]).
    intros F1 F2 F3 F4 F5. apply Q4; try assumption. rewrite EO. now apply Hone.
Qed.
Print Assumptions C147_from_sphere_run.

(** If no light is scattered out of the sphere the phase function is NaN and the
    film calculation raises TypeError, whatever the film. *)
Theorem C147_nothing_scattered : forall bw n rw tw ri ti nr nt phi d k lam nevents ntraj spot tmin tmax pmin pmax P D u_phi u_theta,
  0 < d -> one_exit n ri ti -> (forall i, (i < n)%nat -> ~ scattered_out ri ti i) ->
  bind (bulk_call bw n rw tw ri ti nr nt phi d k lam None)
       (bulk_film_run nevents ntraj spot tmin tmax pmin pmax P D u_phi u_theta) = Err TypeError.
Proof.
  intros bw n rw tw ri ti nr nt phi d k lam nev ntraj spot tmin tmax pmin pmax P D up ut Hd Ho Hno.
  unfold bulk_call, calc_scat_bulk. cbv zeta. rewrite exit_z.
  destruct (calc_mu_scat_abs _ _ _ _ _ _ _) as [ms ma]. cbn [option_map].
  pose proof (proj2 (pdf_nan bw n (fun i => (vz (nr i) + vz (nt i)) * (d / 2)) (d / 2) rw tw ri ti _ Ho)
    (conj eq_refl (fun i Hi Hs _ => False_ind _ (Hno i Hi Hs)))) as E.
  unfold pdf_call in E. cbn [option_map] in E. rewrite E. reflexivity.
Qed.
Print Assumptions C147_nothing_scattered.

(** The case of C124 (half of the light leaves in each direction) in a film of
    100 trajectories. *)
Example C147_case :
  let ri i := if Nat.eqb i 0 then 2%nat else 0%nat in let ti i := if Nat.eqb i 0 then 0%nat else 3%nat in
  let rw i := if Nat.eqb i 0 then 1 / 2 else 0 in let tw i := if Nat.eqb i 0 then 0 else 1 / 2 in
  let nr i := if Nat.eqb i 0 then (0, 3 / 5, - 4 / 5) : vec else (0, 0, 0) in
  let nt i := if Nat.eqb i 0 then (0, 0, 0) : vec else (0, 3 / 5, 4 / 5) in
  exists p ms ma after oo, bulk_call (fun _ _ => 1) 2 rw tw ri ti nr nt (1 / 2) 1 0 1 None = Ok (p, ms, ma, after)
    /\ bulk_film_run 300 100 1 0 (PI / 4) 0 (2 * PI) film_call half_draws (fun _ _ => 1 / 2) (fun _ _ => 1 / 3) (p, ms, ma, after) = Ok oo
    /\ forall r, oo = Some r -> o_refl r + o_trans r = 1.
Proof.
  cbv zeta.
  destruct (C147_bulk_film (fun _ _ => 1) 2 (fun i => if Nat.eqb i 0 then 1 / 2 else 0) (fun i => if Nat.eqb i 0 then 0 else 1 / 2)
    (fun i => if Nat.eqb i 0 then 2%nat else 0%nat) (fun i => if Nat.eqb i 0 then 0%nat else 3%nat)
    (fun i => if Nat.eqb i 0 then (0, 3 / 5, - 4 / 5) : vec else (0, 0, 0))
    (fun i => if Nat.eqb i 0 then (0, 0, 0) : vec else (0, 3 / 5, 4 / 5)) (1 / 2) 1 0 1 300 100 1 0 (PI / 4) 0 (2 * PI)
    film_call half_draws (fun _ _ => 1 / 2) (fun _ _ => 1 / 3))
    as (p & ms & ma & after & E & _ & _ & oo & Eoo & Q); try reflexivity; try lra; try lia.
  - intros. lra.
  - intros [|[|i]] H; cbn; try lia; auto.
  - intros [|[|i]] H; cbn; lra.
  - unfold over. cbn. lra.
  - intros [|[|i]] H _; try lia; unfold exit_weight; cbn; repeat split; try lra; apply Rlt_not_eq || apply Rgt_not_eq; lra.
  - exists 0%nat. split; [lia|]. left. cbn. lia.
  - intros. lra.
  - intros i. cbn. lra.
  - intros i. cbn. lra.
  - intros k i. apply mod2_half.
  - unfold valid_params, film_call; cbn. repeat split; try lra; discriminate.
  - cbn. lra.
  - exists p, ms, ma, after, oo. split; [exact E|]. split; [exact Eoo|]. intros r Er.
    apply (proj2 (proj2 (proj2 (Q r Er)))); try reflexivity.
    + repeat split.
    + unfold over. cbn. lra.
Qed.
