(** C157: averages over independent trajectories.  Vocabulary in
    Spec_estimate.v, Spec_direct.v and Spec_mean.v. *)
From Coq Require Import Lra Lia Psatz Reals List.
From Verif Require Import Num Spec Spec_detector Spec_mean Spec_direct Spec_estimate M_init M_montecarlo M_detector M_simulation
  L_num L_mean L_periodic L_direct L_estimate L_estimate2 Properties_detector Properties_simulation Properties_direct.
From Coquelicot Require Import Coquelicot.
Import ListNotations.
Open Scope R_scope.

(** Spheres: whatever the way [dr] of making the draws of one trajectory from K
    random numbers, n independent trajectories give a reflectance and a
    transmittance with the means of one trajectory and 1/n of its variances. *)
Theorem C157_sphere : forall nevents n spot mu_scat P K dr m v,
  (0 < nevents)%nat -> (0 < n)%nat -> 0 < p_thickness P -> 0 < spot <= p_thickness P -> 0 < mu_scat -> 0 <= p_muabs P ->
  p_boundary P = sphere -> p_run P = false -> plain P -> full_detection P -> valid_params P 1 -> 0 < p_nmedium P <= p_nsample P ->
  (forall s, good_draws (dr s)) ->
  let refl k D := refl_of (sphere_run nevents k spot mu_scat P D) in
  let trans k D := trans_of (sphere_run nevents k spot mu_scat P D) in
  (is_mean K (fun s => refl 1%nat (dr s)) m ->
     is_mean (n * K) (fun t => refl n (many K dr t)) m
     /\ (is_mean K (fun s => (refl 1%nat (dr s) - m) ^ 2) v -> is_mean (n * K) (fun t => (refl n (many K dr t) - m) ^ 2) (v / INR n)))
  /\ (is_mean K (fun s => trans 1%nat (dr s)) m ->
     is_mean (n * K) (fun t => trans n (many K dr t)) m
     /\ (is_mean K (fun s => (trans 1%nat (dr s) - m) ^ 2) v -> is_mean (n * K) (fun t => (trans n (many K dr t) - m) ^ 2) (v / INR n))).
Proof.
  intros nev n spot mu P K dr m v Hn Hpos Hd Hsp Hmu Ha Hb Hr Hp Hfd Hv Hns HD refl trans.
  assert (A : forall t, refl n (many K dr t) = sums K (fun s => refl 1%nat (dr s)) n t / INR n) by
    (intros t; exact (proj1 (sp_average nev spot mu P Hn Hmu Ha Hd Hsp Hb Hr Hp Hfd Hns Hv K dr n t Hpos HD))).
  assert (B : forall t, trans n (many K dr t) = sums K (fun s => trans 1%nat (dr s)) n t / INR n) by
    (intros t; exact (proj2 (sp_average nev spot mu P Hn Hmu Ha Hd Hsp Hb Hr Hp Hfd Hns Hv K dr n t Hpos HD))).
  split; intros M.
  - split; [exact (average_mean K _ m n _ Hpos A M)|]. intros Hvar. exact (average_variance K _ m v n _ Hpos A M Hvar).
  - split; [exact (average_mean K _ m n _ Hpos B M)|]. intros Hvar. exact (average_variance K _ m v n _ Hpos B M Hvar).
Qed.
Print Assumptions C157_sphere.

(** Films: the same for the light that the two surfaces let through, at any
    launch cone. *)
Theorem C157_film_let_through : forall nevents n spot tmin tmax pmin pmax mu_scat P K dr m v,
  (0 < nevents)%nat -> (0 < n)%nat -> 0 < mu_scat -> plain_film P -> (forall s n i, 0 <= d_u (dr s) n i < 1) ->
  let front k D := front_of (film_run nevents k spot tmin tmax pmin pmax mu_scat P D) in
  let back k D := back_of (film_run nevents k spot tmin tmax pmin pmax mu_scat P D) in
  (is_mean K (fun s => front 1%nat (dr s)) m ->
     is_mean (n * K) (fun t => front n (many K dr t)) m
     /\ (is_mean K (fun s => (front 1%nat (dr s) - m) ^ 2) v -> is_mean (n * K) (fun t => (front n (many K dr t) - m) ^ 2) (v / INR n)))
  /\ (is_mean K (fun s => back 1%nat (dr s)) m ->
     is_mean (n * K) (fun t => back n (many K dr t)) m
     /\ (is_mean K (fun s => (back 1%nat (dr s) - m) ^ 2) v -> is_mean (n * K) (fun t => (back n (many K dr t) - m) ^ 2) (v / INR n))).
Proof.
  intros nev n spot tmin tmax pmin pmax mu P K dr m v Hn Hpos Hmu HP HD front back.
  assert (A : forall t, front n (many K dr t) = sums K (fun s => front 1%nat (dr s)) n t / INR n) by
    (intros t; exact (proj1 (fl_average nev spot tmin tmax pmin pmax mu P Hn Hmu HP K dr n t Hpos HD))).
  assert (B : forall t, back n (many K dr t) = sums K (fun s => back 1%nat (dr s)) n t / INR n) by
    (intros t; exact (proj2 (fl_average nev spot tmin tmax pmin pmax mu P Hn Hmu HP K dr n t Hpos HD))).
  split; intros M.
  - split; [exact (average_mean K _ m n _ Hpos A M)|]. intros Hvar. exact (average_variance K _ m v n _ Hpos A M Hvar).
  - split; [exact (average_mean K _ m n _ Hpos B M)|]. intros Hvar. exact (average_variance K _ m v n _ Hpos B M Hvar).
Qed.
Print Assumptions C157_film_let_through.

(** Films: the reflectance and the transmittance themselves.  Their means may
    depend on the number of trajectories, but by no more than the mean light
    that the surfaces send back into the film. *)
Theorem C157_film_bias : forall nevents n spot tmin tmax pmin pmax mu_scat P K dr m m' f,
  (0 < nevents)%nat -> (0 < n)%nat -> 0 < mu_scat -> plain_film P -> full_detection P -> valid_params P 1 ->
  (forall s n i, 0 <= d_u (dr s) n i < 1) ->
  let run k D := film_run nevents k spot tmin tmax pmin pmax mu_scat P D in
  (forall s, exists o, run 1%nat (dr s) = Ok (Some o)) ->
  is_mean K (fun s => sent_back_of (run 1%nat (dr s))) f ->
  (is_mean K (fun s => refl_of (run 1%nat (dr s))) m -> is_mean (n * K) (fun t => refl_of (run n (many K dr t))) m' -> Rabs (m' - m) <= f)
  /\ (is_mean K (fun s => trans_of (run 1%nat (dr s))) m -> is_mean (n * K) (fun t => trans_of (run n (many K dr t))) m' -> Rabs (m' - m) <= f).
Proof.
  intros nev n spot tmin tmax pmin pmax mu P K dr m m' f Hn Hpos Hmu HP Hfd Hv HD run Hone Mf.
  assert (Af : is_mean (n * K) (fun t => sums K (fun s => sent_back_of (run 1%nat (dr s))) n t / INR n) f) by (apply (average_mean K _ f n _ Hpos (fun _ => eq_refl) Mf)).
  assert (G : forall X : result (option outcome) -> R, (forall t, Rabs (X (run n (many K dr t)) - sums K (fun s => X (run 1%nat (dr s))) n t / INR n)
      <= sums K (fun s => sent_back_of (run 1%nat (dr s))) n t / INR n) ->
    is_mean K (fun s => X (run 1%nat (dr s))) m -> is_mean (n * K) (fun t => X (run n (many K dr t))) m' -> Rabs (m' - m) <= f).
  { intros X HX M1 Mn. pose proof (average_mean K _ m n (fun t => sums K (fun s => X (run 1%nat (dr s))) n t / INR n) Hpos (fun _ => eq_refl) M1) as A1.
    apply Rabs_le. split.
    - assert (m + -1 * f <= m'); [|lra].
      refine (is_mean_le (n * K) _ _ _ _ _ (is_mean_plus _ _ _ _ _ A1 (is_mean_scal _ (-1) _ _ Af)) Mn). intros t _. specialize (HX t). apply Rabs_le_between in HX. lra.
    - assert (m' <= m + f); [|lra].
      refine (is_mean_le (n * K) _ _ _ _ _ Mn (is_mean_plus _ _ _ _ _ A1 Af)). intros t _. specialize (HX t). apply Rabs_le_between in HX. lra. }
  split; apply G; intros t; apply (fl_close nev spot tmin tmax pmin pmax mu P Hn Hmu HP Hfd Hv K dr n t Hpos HD Hone).
Qed.
Print Assumptions C157_film_bias.

(** And they do depend on it: in an absorbing film at normal incidence with one
    event per trajectory, two trajectories reflect less on average than one.
    The steps are drawn from uniform numbers, as sample_step does. *)
Theorem C157_film_unbiased_refuted : forall spot pmin pmax mu_scat P D,
  0 < mu_scat -> plain_film P -> full_detection P -> valid_params P 1 -> 0 < p_muabs P -> (forall n i, 0 <= d_u D n i < 1) ->
  let dr := fun s : nat -> R => with_first_draws (fun _ => s 0%nat) D in
  let refl k D := refl_of (film_run 1 k spot 0 0 pmin pmax mu_scat P D) in
  exists m1 m2, is_mean 1 (fun s => refl 1%nat (dr s)) m1 /\ is_mean 2 (fun t => refl 2%nat (many 1 dr t)) m2 /\ m2 < m1.
Proof.
  intros spot pmin pmax mu P D Hmu HP Hfd Hv Ha Hu. exact (biased_means spot pmin pmax mu P D Hmu HP Hfd Hv Ha Hu).
Qed.
Print Assumptions C157_film_unbiased_refuted.

(** Draws by the toss of a coin. *)
Definition coin (D1 D2 : draws) (s : nat -> R) : draws := if (Rltb 0 (s 0%nat) && Rltb (s 0%nat) (1 / 2))%bool then D1 else D2.
Lemma coin_mean (g : draws -> R) D1 D2 : is_mean 1 (fun s => g (coin D1 D2 s)) ((g D1 + g D2) / 2)
  /\ is_mean 1 (fun s => (g (coin D1 D2 s) - (g D1 + g D2) / 2) ^ 2) (((g D1 - g D2) / 2) ^ 2).
Proof.
  assert (H : forall h : draws -> R, is_mean 1 (fun s => h (coin D1 D2 s)) ((h D1 + h D2) / 2)).
  { intros h. exists (fun _ => (h D1 + h D2) / 2). split; [|apply is_mean_const]. intros t.
    pose proof (is_RInt_plus _ _ 0 1 _ _ (is_RInt_const 0 1 (h D2)) (ind_integral 0 (1 / 2) (h D1 - h D2) ltac:(lra) ltac:(lra))) as Q.
    apply (is_RInt_ext _ (fun x => h (coin D1 D2 (upd t 0 x)))) in Q.
    - refine (eq_ind _ (fun v => is_RInt _ 0 1 v) Q _ _). change ((1 - 0) * h D2 + (h D1 - h D2) * (1 / 2 - 0) = (h D1 + h D2) / 2). field.
    - intros x _. unfold coin. rewrite upd_same. destruct (Rltb 0 x && Rltb x (1 / 2))%bool.
      + change (h D2 + (h D1 - h D2) = h D1). ring.
      + change (h D2 + 0 = h D2). ring. }
  split; [apply H|]. pose proof (H (fun D => (g D - (g D1 + g D2) / 2) ^ 2)) as Q. cbv beta in Q.
  replace (((g D1 - g D2) / 2) ^ 2) with (((g D1 - (g D1 + g D2) / 2) ^ 2 + (g D2 - (g D1 + g D2) / 2) ^ 2) / 2) by field. exact Q.
Qed.
Definition still_call : params :=
  mk_params 10 1 (4 / 3) sphere 0 (PI / 2) None None false 20 (1 / 100) 0 None None None 0 None None.
Definition drawn (u : R) : draws := mk_draws (fun _ => 1 / 2) (fun _ => 0) (fun _ => 0) (fun _ => 0) (fun _ _ => (0, 0)) (fun _ _ => u) (fun _ _ _ => (0, 0)) (fun _ _ _ => 0).
(** A sphere and trajectories that end early or late. *)
Example C157_case : let dr := coin (drawn (1 / 4)) (drawn (3 / 4)) in
  (forall s, good_draws (dr s)) /\ plain still_call /\ full_detection still_call /\ valid_params still_call 1
  /\ exists m v, is_mean 1 (fun s => refl_of (sphere_run 5 1 10 (1 / 10) still_call (dr s))) m
       /\ is_mean 1 (fun s => (refl_of (sphere_run 5 1 10 (1 / 10) still_call (dr s)) - m) ^ 2) v
       /\ is_mean (100 * 1) (fun t => refl_of (sphere_run 5 100 10 (1 / 10) still_call (many 1 dr t))) m
       /\ is_mean (100 * 1) (fun t => (refl_of (sphere_run 5 100 10 (1 / 10) still_call (many 1 dr t)) - m) ^ 2) (v / INR 100).
Proof.
  intros dr.
  assert (G : forall s, good_draws (dr s)).
  { intros s. unfold dr, coin. destruct (_ && _)%bool; (split; [intros i; cbn; lra|intros n i; cbn; lra]). }
  assert (Hp : plain still_call) by (repeat split). assert (Hf : full_detection still_call) by reflexivity.
  assert (Hv : valid_params still_call 1).
  { unfold valid_params, still_call. cbn [p_nmedium p_nsample p_fine p_nparticle p_nmatrix p_nfront p_nback p_kz0rot p_kz0refl].
    split; [lra|]. split; [lra|]. split; [lra|]. repeat (split; [discriminate|]). discriminate. }
  split; [exact G|]. split; [exact Hp|]. split; [exact Hf|]. split; [exact Hv|].
  set (g D := refl_of (sphere_run 5 1 10 (1 / 10) still_call D)). destruct (coin_mean g (drawn (1 / 4)) (drawn (3 / 4))) as [M1 M2].
  exists ((g (drawn (1 / 4)) + g (drawn (3 / 4))) / 2), (((g (drawn (1 / 4)) - g (drawn (3 / 4))) / 2) ^ 2). split; [exact M1|]. split; [exact M2|].
  pose proof (C157_sphere 5 100 10 (1 / 10) still_call 1 dr) as Q. cbv zeta in Q.
  destruct (Q ((g (drawn (1 / 4)) + g (drawn (3 / 4))) / 2) (((g (drawn (1 / 4)) - g (drawn (3 / 4))) / 2) ^ 2)) as [Q1 _]; try assumption; try reflexivity; try lia; try (cbn; lra).
  destruct (Q1 M1) as [X Y]. split; [exact X|]. exact (Y M2).
Qed.
(** An absorbing film: the hypotheses of the bias theorems. *)
Example C157_film_case : let P := direct_film (1 / 10) in let dr := coin (drawn (1 / 4)) (drawn (3 / 4)) in
  plain_film P /\ full_detection P /\ valid_params P 1 /\ 0 < p_muabs P
  /\ (forall s n i, 0 <= d_u (dr s) n i < 1)
  /\ (forall s, exists o, film_run 1 1 1 0 0 0 (2 * PI) 1 P (dr s) = Ok (Some o))
  /\ exists f m, is_mean 1 (fun s => sent_back_of (film_run 1 1 1 0 0 0 (2 * PI) 1 P (dr s))) f /\ is_mean 1 (fun s => refl_of (film_run 1 1 1 0 0 0 (2 * PI) 1 P (dr s))) m.
Proof.
  intros P dr. assert (HP : plain_film P) by (apply (C156_case (1 / 10)); lra).
  assert (Hf : full_detection P) by reflexivity.
  assert (Hv : valid_params P 1).
  { unfold valid_params, P, direct_film. cbn [p_nmedium p_nsample p_fine p_nparticle p_nmatrix p_nfront p_nback p_kz0rot p_kz0refl].
    split; [lra|]. split; [lra|]. split; [lra|]. split; [discriminate|]. split; [discriminate|].
    split; [intros m E; assert (m = 3 / 2) by congruence; lra|]. repeat (split; [discriminate|]). discriminate. }
  assert (Ha : 0 < p_muabs P) by (cbn; lra).
  assert (G : forall s n i, 0 <= d_u (dr s) n i < 1) by (intros s n i; unfold dr, coin; destruct (_ && _)%bool; cbn; lra).
  split; [exact HP|]. split; [exact Hf|]. split; [exact Hv|]. split; [exact Ha|]. split; [exact G|]. split.
  - intros s. assert (exists u, 0 < u < 1 /\ forall i, d_u (dr s) 0 i = u) as (u & Hu & Eu).
    { unfold dr, coin. destruct (_ && _)%bool; [exists (1 / 4)|exists (3 / 4)]; (split; [lra|reflexivity]). }
    apply (fl_answers 1 1 0 0 0 (2 * PI) 1 P); try assumption; try lia; try lra; [apply G|].
    cbn [seq map]. rewrite (fl_normal 1 0 (2 * PI) 1 P (dr s) 0). unfold L_meta3.bad_known. cbn [P direct_film p_boundary]. apply Reqb_false.
    change (fold_right Rplus 0 (cons (L_meta3.c_ab P false (L_meta.film_view P (T 1 1 1 P (dr s) 0)) + L_meta3.c_rp P false (L_meta.film_view P (T 1 1 1 P (dr s) 0)) + L_meta3.c_tp P false (L_meta.film_view P (T 1 1 1 P (dr s) 0))) nil) <> 0).
    destruct (one_weights 1 0 (2 * PI) 1 P ltac:(lra) HP (dr s) 0 u (G s)) as (_ & _ & _ & _ & K); [rewrite Eu; symmetry; now apply frac_in|].
    cbn [fold_right]. rewrite K, Rplus_0_r. pose proof (kn_range 1 P ltac:(lra) HP Ha u Hu). lra.
  - set (g D := sent_back_of (film_run 1 1 1 0 0 0 (2 * PI) 1 P D)). set (h D := refl_of (film_run 1 1 1 0 0 0 (2 * PI) 1 P D)).
    exists ((g (drawn (1 / 4)) + g (drawn (3 / 4))) / 2), ((h (drawn (1 / 4)) + h (drawn (3 / 4))) / 2).
    exact (conj (proj1 (coin_mean g (drawn (1 / 4)) (drawn (3 / 4)))) (proj1 (coin_mean h (drawn (1 / 4)) (drawn (3 / 4))))).
Qed.
