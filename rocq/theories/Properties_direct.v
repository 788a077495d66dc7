(** C156: light that crosses a film without being scattered.  Vocabulary in
    Spec_direct.v and Spec_mean.v. *)
From Coq Require Import Lra Lia Psatz Reals List.
From Verif Require Import Num Spec Spec_detector Spec_mean Spec_direct M_init M_montecarlo M_detector M_simulation
  L_num L_mean L_direct Properties_detector Properties_simulation.
Import ListNotations.
Open Scope R_scope.

Lemma plain_tir P : plain_film P -> choose_n_tir P = p_nsample P.
Proof. intros (_ & _ & _ & _ & _ & Hp & _ & _ & _ & Hm & _). unfold choose_n_tir. rewrite Hp. apply Rabs_pos_eq. lra. Qed.
Lemma first_draws_ok t D : (forall n i, 0 <= d_u D n i < 1) -> forall n i, 0 <= d_u (with_first_draws t D) n i < 1.
Proof. intros H [|n] i; cbn [d_u with_first_draws]; [pose proof (base_fp (t i)); lra|apply H]. Qed.

(** One calculation at normal incidence: a trajectory leaves unscattered if its
    first step is longer than the film, and what it carries out is what both
    surfaces let through times the attenuation over that whole step ... *)
Theorem C156_exit_weight : forall nevents ntraj spot pmin pmax mu_scat P D o i,
  plain_film P -> (0 < nevents)%nat -> 0 < mu_scat -> (forall n i, 0 <= d_u D n i < 1) ->
  film_run nevents ntraj spot 0 0 pmin pmax mu_scat P D = Ok (Some o) -> (i < ntraj)%nat ->
  let step := - ln (1 - d_u D 0 i) / mu_scat in
  (nth i (o_trans_i o) 0%nat = 1%nat <-> p_thickness P <= step)
  /\ (p_thickness P <= step ->
      nth i (o_trans_pass o) 0 = both_surfaces P * exp (- (p_muabs P * step)) / INR ntraj).
Proof.
  intros nev ntraj spot pmin pmax mu P D o i HP Hn Hmu Hu H Hi step. pose proof (plain_tir P HP) as Ht.
  destruct HP as (Hb & Hr & Hg & Hk1 & Hk2 & _ & Hz & Hth & Ha & Hm & Hf & Hbk).
  unfold both_surfaces. rewrite <- Ht in Hm |- *.
  exact (run_some nev ntraj spot pmin pmax mu P D Hn Hmu Ha Hu Hb Hr Hg Hz Hk1 Hk2 Hth Hm Hf Hbk o i H Hi).
Qed.
Print Assumptions C156_exit_weight.

(** ... not over the film: with absorption, a trajectory that goes beyond the
    back surface carries out less than Beer's law for the film leaves. *)
Theorem C156_exit_weight_refuted : forall nevents ntraj spot pmin pmax mu_scat P D o i,
  plain_film P -> (0 < nevents)%nat -> 0 < mu_scat -> (forall n i, 0 <= d_u D n i < 1) ->
  film_run nevents ntraj spot 0 0 pmin pmax mu_scat P D = Ok (Some o) -> (i < ntraj)%nat ->
  0 < p_muabs P -> p_thickness P < - ln (1 - d_u D 0 i) / mu_scat ->
  nth i (o_trans_pass o) 0 < both_surfaces P * exp (- (p_muabs P * p_thickness P)) / INR ntraj.
Proof.
  intros nev ntraj spot pmin pmax mu P D o i HP Hn Hmu Hu H Hi Ha Hlt.
  destruct (C156_exit_weight nev ntraj spot pmin pmax mu P D o i HP Hn Hmu Hu H Hi) as [_ E]. rewrite E by lra.
  destruct HP as (Hb & Hr & Hg & Hk1 & Hk2 & _ & Hz & Hth & _ & Hm & Hf & Hbk).
  assert (HI : 0 < INR ntraj) by (apply lt_0_INR; lia).
  assert (Hc : 0 < both_surfaces P) by (unfold both_surfaces; apply Rmult_lt_0_compat; apply through_range; assumption || lra).
  unfold Rdiv. apply Rmult_lt_compat_r; [now apply Rinv_0_lt_compat|]. apply Rmult_lt_compat_l; [exact Hc|].
  apply exp_increasing. assert (p_muabs P * p_thickness P < p_muabs P * (- ln (1 - d_u D 0 i) / mu)) by (now apply Rmult_lt_compat_l). unfold Rdiv in *. lra.
Qed.
Print Assumptions C156_exit_weight_refuted.

(** The mean over the first steps, all other draws fixed: the unscattered
    transmitted light is what both surfaces let through times
    exp(-(mu_scat + mu_abs) thickness) times the albedo
    mu_scat / (mu_scat + mu_abs). *)
Theorem C156_direct_law : forall nevents ntraj spot pmin pmax mu_scat P D,
  plain_film P -> (0 < nevents)%nat -> (0 < ntraj)%nat -> 0 < mu_scat -> (forall n i, 0 <= d_u D n i < 1) ->
  is_mean ntraj (fun t => direct_fraction (film_run nevents ntraj spot 0 0 pmin pmax mu_scat P (with_first_draws t D)))
    (both_surfaces P * (mu_scat / (mu_scat + p_muabs P)) * exp (- ((mu_scat + p_muabs P) * p_thickness P))).
Proof.
  intros nev ntraj spot pmin pmax mu P D HP Hn Hnt Hmu Hu. pose proof (plain_tir P HP) as Ht.
  destruct HP as (Hb & Hr & Hg & Hk1 & Hk2 & _ & Hz & Hth & Ha & Hm & Hf & Hbk).
  assert (HI : 0 < INR ntraj) by (apply lt_0_INR; lia).
  unfold both_surfaces. rewrite <- Ht in Hm |- *. set (c := through _ _ _ * through _ _ _).
  apply (is_mean_ext _ (fun t => fold_right Rplus 0 (map (fun i =>
     if Rleb (p_thickness P) (step_of mu (frac_part (t i))) then c / INR ntraj * exp (- (p_muabs P * step_of mu (frac_part (t i)))) else 0) (seq 0 ntraj)))).
  - intros t. rewrite direct_run; try assumption; [|now apply first_draws_ok]. f_equal. apply map_ext. intros i. cbn [d_u with_first_draws].
    destruct (Rleb _ _); [|reflexivity]. fold c. unfold Rdiv. ring.
  - replace (c * (mu / (mu + p_muabs P)) * exp (- ((mu + p_muabs P) * p_thickness P)))
      with (INR ntraj * (c / INR ntraj * (mu / (mu + p_muabs P)) * exp (- ((mu + p_muabs P) * p_thickness P)))) by (field; split; lra).
    apply (mean_sum (fun u => if Rleb (p_thickness P) (step_of mu (frac_part u)) then c / INR ntraj * exp (- (p_muabs P * step_of mu (frac_part u))) else 0)).
    apply crossing_integral; lra.
Qed.
Print Assumptions C156_direct_law.

(** Beer-Lambert law of the unscattered light, right without absorption ... *)
Theorem C156_beer_lambert : forall nevents ntraj spot pmin pmax mu_scat P D,
  plain_film P -> (0 < nevents)%nat -> (0 < ntraj)%nat -> 0 < mu_scat -> (forall n i, 0 <= d_u D n i < 1) ->
  p_muabs P = 0 ->
  is_mean ntraj (fun t => direct_fraction (film_run nevents ntraj spot 0 0 pmin pmax mu_scat P (with_first_draws t D)))
    (both_surfaces P * exp (- ((mu_scat + p_muabs P) * p_thickness P))).
Proof.
  intros nev ntraj spot pmin pmax mu P D HP Hn Hnt Hmu Hu E.
  pose proof (C156_direct_law nev ntraj spot pmin pmax mu P D HP Hn Hnt Hmu Hu) as L. rewrite E, Rplus_0_r in *.
  replace (both_surfaces P * (mu / mu)) with (both_surfaces P) in L by (field; lra). exact L.
Qed.
Print Assumptions C156_beer_lambert.

(** ... and wrong with it. *)
Theorem C156_beer_lambert_refuted : forall nevents ntraj spot pmin pmax mu_scat P D,
  plain_film P -> (0 < nevents)%nat -> (0 < ntraj)%nat -> 0 < mu_scat -> (forall n i, 0 <= d_u D n i < 1) ->
  0 < p_muabs P ->
  ~ is_mean ntraj (fun t => direct_fraction (film_run nevents ntraj spot 0 0 pmin pmax mu_scat P (with_first_draws t D)))
      (both_surfaces P * exp (- ((mu_scat + p_muabs P) * p_thickness P))).
Proof.
  intros nev ntraj spot pmin pmax mu P D HP Hn Hnt Hmu Hu Ha M.
  pose proof (C156_direct_law nev ntraj spot pmin pmax mu P D HP Hn Hnt Hmu Hu) as L.
  pose proof (is_mean_unique ntraj _ _ _ _ (fun t => eq_refl) M L) as E.
  destruct HP as (Hb & Hr & Hg & Hk1 & Hk2 & _ & Hz & Hth & _ & Hm & Hf & Hbk).
  assert (Hc : 0 < both_surfaces P) by (unfold both_surfaces; apply Rmult_lt_0_compat; apply through_range; assumption || lra).
  set (e := exp _) in E. assert (0 < e) by apply exp_pos.
  assert (X : both_surfaces P * e * (1 - mu / (mu + p_muabs P)) = 0) by lra.
  assert (0 < both_surfaces P * e) by (now apply Rmult_lt_0_compat).
  apply Rmult_integral in X. destruct X as [X|X]; [lra|].
  assert (Q : 1 - mu / (mu + p_muabs P) = p_muabs P / (mu + p_muabs P)) by (field; lra).
  assert (0 < p_muabs P / (mu + p_muabs P)) by (apply Rdiv_lt_0_compat; lra). lra.
Qed.
Print Assumptions C156_beer_lambert_refuted.

(** A film of index 5/4 in air, 2 thick, with a coverslip in front; without
    and with absorption. *)
Definition direct_film (mua : R) : params :=
  mk_params 2 1 (5 / 4) film 0 (PI / 2) (Some (3 / 2)) None false 20 (1 / 100) mua None None None 0 None None.
Example C156_case : forall mua, 0 <= mua -> plain_film (direct_film mua) /\ forall n i, 0 <= d_u half_draws n i < 1.
Proof.
  intros mua Ha. split.
  - unfold plain_film, direct_film. cbn [p_boundary p_run p_gonio p_kz0rot p_kz0refl p_nparticle p_zlow p_thickness p_muabs p_nmedium p_nsample p_nfront p_nback].
    do 7 (split; [reflexivity|]). split; [lra|]. split; [lra|]. split; [lra|].
    split; [intros m E; assert (m = 3 / 2) by congruence; lra|intros m E; discriminate].
  - intros n i. apply mod2_half.
Qed.
