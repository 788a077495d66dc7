(** C159: light that crosses a film without being scattered, at any angle of
    incidence.  Vocabulary in Spec_oblique.v, Spec_direct.v and Spec_mean.v. *)
From Coq Require Import Lra Lia Psatz Reals List.
From Verif Require Import Num Spec Spec_detector Spec_mean Spec_direct Spec_estimate Spec_oblique M_init M_montecarlo M_detector M_simulation
  L_num L_mean L_periodic L_weights L_direct L_estimate L_single L_oblique Properties_detector Properties_simulation Properties_direct.
From Coquelicot Require Import Coquelicot.
Import ListNotations.
Open Scope R_scope.

(** One calculation: a trajectory leaves unscattered if its first step, along
    its refracted direction, reaches the back of the film, and it carries out
    what both surfaces let through at its angles times the attenuation over
    that step. *)
Theorem C159_exit_weight : forall nevents ntraj spot tmin tmax pmin pmax mu_scat P D o i,
  plain_film P -> (0 < nevents)%nat -> 0 < mu_scat -> (forall n i, 0 <= d_u D n i < 1) ->
  0 <= tmin <= tmax -> tmax < PI / 2 -> (forall i, 0 <= d_l2 D i <= 1) -> slips_admit P tmax ->
  film_run nevents ntraj spot tmin tmax pmin pmax mu_scat P D = Ok (Some o) -> (i < ntraj)%nat ->
  let step := - ln (1 - d_u D 0 i) / mu_scat in
  let depth := step * cos (inner tmin tmax P D i) in
  (nth i (o_trans_i o) 0%nat = 1%nat <-> p_thickness P <= depth)
  /\ (p_thickness P <= depth ->
      nth i (o_trans_pass o) 0 = both_at P (incidence tmin tmax D i) * exp (- (p_muabs P * step)) / INR ntraj).
Proof.
  intros nev ntraj spot tmin tmax pmin pmax mu P D o i HP Hn Hmu Hu H1 H2 H3 H4 H Hi step depth.
  exact (oblique_some nev spot tmin tmax pmin pmax mu P D Hn Hmu HP Hu H1 H2 H3 H4 ntraj o i H Hi).
Qed.
Print Assumptions C159_exit_weight.

(** The mean over the first steps, all other draws (the angles of incidence
    among them) fixed: the average over the trajectories of what both surfaces
    let through times exp(-(mu_scat + mu_abs) thickness / cos(inner angle)),
    times the albedo. *)
Theorem C159_direct_law : forall nevents ntraj spot tmin tmax pmin pmax mu_scat P D,
  plain_film P -> (0 < nevents)%nat -> (0 < ntraj)%nat -> 0 < mu_scat -> (forall n i, 0 <= d_u D n i < 1) ->
  0 <= tmin <= tmax -> tmax < PI / 2 -> (forall i, 0 <= d_l2 D i <= 1) -> slips_admit P tmax ->
  let ext := mu_scat + p_muabs P in
  is_mean ntraj (fun t => direct_fraction (film_run nevents ntraj spot tmin tmax pmin pmax mu_scat P (with_first_draws t D)))
    (mu_scat / ext * (total (map (fun i => both_at P (incidence tmin tmax D i)
        * exp (- (ext * p_thickness P / cos (inner tmin tmax P D i)))) (seq 0 ntraj)) / INR ntraj)).
Proof.
  intros nev ntraj spot tmin tmax pmin pmax mu P D HP Hn Hnt Hmu Hu H1 H2 H3 H4 ext.
  assert (HI : 0 < INR ntraj) by (apply lt_0_INR; lia).
  assert (Had : 0 <= p_muabs P /\ 0 < p_thickness P) by (destruct HP as (_ & _ & _ & _ & _ & _ & _ & Hd & Ha & _); split; assumption).
  destruct Had as [Ha Hd].
  set (B i := both_at P (incidence tmin tmax D i)). set (c i := cos (inner tmin tmax P D i)).
  assert (Hc : forall i, 0 < c i) by (intros i; apply (inner_ok tmin tmax P D HP H1 H2 H3 i)).
  set (h i u := if Rleb (p_thickness P / c i) (step_of mu (frac_part u)) then B i / INR ntraj * exp (- (p_muabs P * step_of mu (frac_part u))) else 0).
  set (m i := B i / INR ntraj * (mu / (mu + p_muabs P)) * exp (- ((mu + p_muabs P) * (p_thickness P / c i)))).
  match goal with |- is_mean _ _ ?v => change v with (mu / ext * (total (map (fun i => B i * exp (- (ext * p_thickness P / c i))) (seq 0 ntraj)) / INR ntraj)) end.
  assert (E : total (map m (seq 0 ntraj)) = mu / ext * (total (map (fun i => B i * exp (- (ext * p_thickness P / c i))) (seq 0 ntraj)) / INR ntraj)).
  2: rewrite <- E.
  2: { match goal with |- is_mean _ ?F ?v => refine (eq_ind (ntraj * 1)%nat (fun k => is_mean k F v) _ ntraj (Nat.mul_1_r ntraj)) end.
    apply (is_mean_ext _ (sums_i 1 (fun i s => h i (s 0%nat)) ntraj)).
    + intros t. rewrite (oblique_run nev spot tmin tmax pmin pmax mu P (with_first_draws t D)); try assumption; [|now apply first_draws_ok].
      unfold sums_i. f_equal. apply map_ext. intros i. unfold numbers_of. cbn [Nat.ltb Nat.leb]. rewrite Nat.mul_1_r, Nat.add_0_r. reflexivity.
    + refine (sums_i_mean 1 (fun i s => h i (s 0%nat)) m ntraj _). intros i _. exists (fun _ => m i). split; [|intros t; reflexivity]. intros t.
      apply (is_RInt_ext (h i)); [intros x _; unfold upd; reflexivity|].
      unfold h, m. apply crossing_integral; try assumption. left. now apply Rdiv_lt_0_compat. }
  { unfold Rdiv at 2. rewrite (Rmult_comm (total _)), <- !L_num.total_map_scale. f_equal. apply map_ext. intros i. unfold m, ext.
    replace ((mu + p_muabs P) * (p_thickness P / c i)) with ((mu + p_muabs P) * p_thickness P / c i) by (unfold Rdiv; ring). unfold Rdiv. ring. }
Qed.
Print Assumptions C159_direct_law.

(** A parallel beam at angle th, without absorption: Beer-Lambert law along the
    slanted path; with absorption the albedo is lost once more. *)
Theorem C159_parallel_beam : forall nevents ntraj spot th pmin pmax mu_scat P D,
  plain_film P -> (0 < nevents)%nat -> (0 < ntraj)%nat -> 0 < mu_scat -> (forall n i, 0 <= d_u D n i < 1) ->
  0 <= th < PI / 2 -> (forall i, 0 <= d_l2 D i <= 1) -> slips_admit P th ->
  let path := p_thickness P / cos (refracted (p_nmedium P) th (p_nsample P)) in
  let beer := both_at P th * exp (- ((mu_scat + p_muabs P) * path)) in
  is_mean ntraj (fun t => direct_fraction (film_run nevents ntraj spot th th pmin pmax mu_scat P (with_first_draws t D)))
    (mu_scat / (mu_scat + p_muabs P) * beer)
  /\ (p_muabs P = 0 -> mu_scat / (mu_scat + p_muabs P) * beer = beer).
Proof.
  intros nev ntraj spot th pmin pmax mu P D HP Hn Hnt Hmu Hu H1 H3 H4 path beer. split; [|intros ->; unfold Rdiv; rewrite Rplus_0_r, Rinv_r by lra; ring].
  assert (HI : 0 < INR ntraj) by (apply lt_0_INR; lia).
  pose proof (C159_direct_law nev ntraj spot th th pmin pmax mu P D HP Hn Hnt Hmu Hu ltac:(lra) ltac:(lra) H3 H4) as L. cbv zeta in L.
  rewrite (map_ext _ (fun _ => beer)) in L.
  - rewrite L_num.total_map_const, seq_length in L. replace (beer * INR ntraj / INR ntraj) with beer in L by (field; lra). exact L.
  - intros i. unfold inner. replace (incidence th th D i) with th by (unfold incidence; ring). unfold beer, path. do 2 f_equal. unfold Rdiv. ring.
Qed.
Print Assumptions C159_parallel_beam.

(** The film of C156 lit at 30 degrees: it meets the conditions, and the inner
    angle is the one of Snell's law, sin = 2/5, so that the path is slanted. *)
Example C159_case : forall mua, 0 <= mua -> plain_film (direct_film mua) /\ slips_admit (direct_film mua) (PI / 6)
  /\ (forall i, 0 <= d_l2 half_draws i <= 1) /\ 0 <= PI / 6 < PI / 2
  /\ sin (refracted (p_nmedium (direct_film mua)) (PI / 6) (p_nsample (direct_film mua))) = 2 / 5.
Proof.
  intros mua Ha. destruct (C156_case mua Ha) as [H _]. split; [exact H|]. pose proof PI_RGT_0.
  split; [|split; [|split]].
  - intros m [E|E]; cbn [direct_film p_nfront p_nback] in E; [|discriminate]. injection E as <-. cbn [direct_film p_nmedium]. rewrite sin_PI6. lra.
  - intros i. cbn. lra.
  - lra.
  - cbn [direct_film p_nmedium p_nsample]. unfold refracted. rewrite sin_PI6, sin_asin by lra. lra.
Qed.
