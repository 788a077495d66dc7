(** C164: how many trajectories are enough.  Vocabulary in Spec_enough.v,
    Spec_estimate.v and Spec_mean.v. *)
From Coq Require Import Lra Lia Psatz Reals List.
From Verif Require Import Num Spec Spec_detector Spec_mean Spec_direct Spec_estimate Spec_enough M_init M_montecarlo M_detector M_simulation
  L_num L_outcomes L_simulation L_mean L_periodic L_direct L_estimate L_estimate2 L_enough Properties_detector Properties_simulation Properties_returned
  Properties_direct Properties_estimate.
From Coquelicot Require Import Coquelicot.
Import ListNotations.
Open Scope R_scope.

(** One trajectory's numbers are fractions. *)
Lemma film_numbers nev spot tmin tmax pmin pmax mu P D : (0 < nev)%nat -> 0 < mu -> plain_film P -> valid_params P 1 ->
  (forall n i, 0 <= d_u D n i < 1) ->
  let r := film_run nev 1 spot tmin tmax pmin pmax mu P D in
  0 <= refl_of r <= 1 /\ 0 <= trans_of r <= 1 /\ 0 <= front_of r <= 1 /\ 0 <= back_of r <= 1 /\ 0 <= sent_back_of r <= 1.
Proof.
  intros Hn Hmu HP Hv Hu r. unfold r.
  rewrite (fl_run nev spot tmin tmax pmin pmax mu P Hn Hmu HP 1 D).
  destruct (fl_views nev spot tmin tmax pmin pmax mu P Hn Hmu HP 1 D _ Hu eq_refl) as (_ & _ & _ & HT).
  set (T := fl_traj nev spot tmin tmax pmin pmax mu P D) in *.
  destruct (calc_refl_trans 22 _ _ P false 0 (map T (seq 0 1))) as [[o|]|] eqn:E; cbn [refl_of trans_of front_of back_of sent_back_of];
    [|repeat split; lra|repeat split; lra].
  assert (HC : forall i, (i < 1)%nat -> col_ok 1 (T i)) by (intros i Hi; apply (HT (T i)); apply in_map, in_seq; lia).
  destruct (outcome_slots _ _ _ _ _ _ _ _ _ (valid_good P 1 Hv) E) as (inc & di & _ & _ & _ & _ & _ & E2 & E3 & E4 & E5 & _).
  destruct (C130_shares _ _ _ P 0 1 T o 0%nat Hv HC E ltac:(lia)) as (B1 & B2 & B3 & B4 & B5 & B6).
  unfold rpass_of, tpass_of, rback_of, tback_of in *. change (INR 1) with 1 in B6.
  rewrite E2 in *. rewrite E3 in *. rewrite E4 in *. rewrite E5 in *. cbn [seq map fold_right nth] in *.
  destruct HP as (Hb & Hr & Hg & Hk1 & Hk2 & Hp & Hz & Hth & Ha & Hm & Hf & Hbk).
  assert (E' : calc_refl_trans 22 (d_rang D) (fun _ _ _ => 0) P false 0 (map T (seq 0 1)) = Ok (Some o)) by (rewrite <- E; apply no_rerun_draws; exact Hr).
  destruct (fractions_hold 22 _ (fun _ _ _ => 0) P 0 1 T o ltac:(lia) Hv (or_introl Hb) Ha ltac:(intros; lra) HC E') as (A1 & A2 & A3 & _).
  repeat split; lra.
Qed.
Lemma sphere_numbers nev spot mu P D : (0 < nev)%nat -> 0 < p_thickness P -> 0 < spot <= p_thickness P -> 0 < mu -> 0 <= p_muabs P ->
  p_boundary P = sphere -> p_run P = false -> plain P -> full_detection P -> valid_params P 1 -> 0 < p_nmedium P <= p_nsample P -> good_draws D ->
  let r := sphere_run nev 1 spot mu P D in 0 <= refl_of r <= 1 /\ 0 <= trans_of r <= 1.
Proof.
  intros Hn Hd Hsp Hmu Ha Hb Hr Hp Hfd Hv Hns HD r.
  set (D0 := mk_draws (d_l0 D) (d_l1 D) (d_l2 D) (d_l3 D) (d_ang D) (d_u D) (d_rang D) (fun _ _ _ => 0)).
  assert (E0 : r = sphere_run nev 1 spot mu P D0).
  { unfold r. rewrite !sp_run by assumption. apply no_rerun_draws, Hr. }
  rewrite E0.
  destruct (C103_sphere_run nev 1 spot mu P D0 Hn ltac:(lia) Hd Hsp Hmu Ha (proj1 HD) (proj2 HD)) as (o & -> & H1 & H2 & H3 & _); try assumption.
  { intros. cbn. lra. }
  cbn [refl_of trans_of]. lra.
Qed.

(** Spheres: the probability that n trajectories miss the mean by [eps] or more
    is at most 2 exp(-2 n eps^2), whatever the sample. *)
Theorem C164_sphere : forall nevents n spot mu_scat P K dr m eps,
  (0 < nevents)%nat -> (0 < n)%nat -> 0 < p_thickness P -> 0 < spot <= p_thickness P -> 0 < mu_scat -> 0 <= p_muabs P ->
  p_boundary P = sphere -> p_run P = false -> plain P -> full_detection P -> valid_params P 1 -> 0 < p_nmedium P <= p_nsample P ->
  (forall s, good_draws (dr s)) -> 0 < eps ->
  let refl k D := refl_of (sphere_run nevents k spot mu_scat P D) in
  let trans k D := trans_of (sphere_run nevents k spot mu_scat P D) in
  (is_mean K (fun s => refl 1%nat (dr s)) m ->
     rare (n * K) (fun t => eps <= Rabs (refl n (many K dr t) - m)) (2 * exp (- (2 * INR n * eps ^ 2))))
  /\ (is_mean K (fun s => trans 1%nat (dr s)) m ->
     rare (n * K) (fun t => eps <= Rabs (trans n (many K dr t) - m)) (2 * exp (- (2 * INR n * eps ^ 2)))).
Proof.
  intros nev n spot mu P K dr m eps Hn Hpos Hd Hsp Hmu Ha Hb Hr Hp Hfd Hv Hns HD He refl trans.
  pose proof (fun s => sphere_numbers nev spot mu P (dr s) Hn Hd Hsp Hmu Ha Hb Hr Hp Hfd Hv Hns (HD s)) as B. cbv zeta in B.
  split; intros M.
  - destruct (hoeffding K (fun s => refl 1%nat (dr s)) m n (fun t => refl n (many K dr t)) eps Hpos (fun s => proj1 (B s))
      (fun t => proj1 (sp_average nev spot mu P Hn Hmu Ha Hd Hsp Hb Hr Hp Hfd Hns Hv K dr n t Hpos HD)) M He) as (Z & z & Z0 & Z1 & ZM & Zb).
    exact (dominated _ _ Z z _ Z0 Z1 ZM Zb).
  - destruct (hoeffding K (fun s => trans 1%nat (dr s)) m n (fun t => trans n (many K dr t)) eps Hpos (fun s => proj2 (B s))
      (fun t => proj2 (sp_average nev spot mu P Hn Hmu Ha Hd Hsp Hb Hr Hp Hfd Hns Hv K dr n t Hpos HD)) M He) as (Z & z & Z0 & Z1 & ZM & Zb).
    exact (dominated _ _ Z z _ Z0 Z1 ZM Zb).
Qed.
Print Assumptions C164_sphere.

(** Films: the same for the light that the two surfaces let through. *)
Theorem C164_film_let_through : forall nevents n spot tmin tmax pmin pmax mu_scat P K dr m eps,
  (0 < nevents)%nat -> (0 < n)%nat -> 0 < mu_scat -> plain_film P -> valid_params P 1 -> (forall s n i, 0 <= d_u (dr s) n i < 1) -> 0 < eps ->
  let front k D := front_of (film_run nevents k spot tmin tmax pmin pmax mu_scat P D) in
  let back k D := back_of (film_run nevents k spot tmin tmax pmin pmax mu_scat P D) in
  (is_mean K (fun s => front 1%nat (dr s)) m ->
     rare (n * K) (fun t => eps <= Rabs (front n (many K dr t) - m)) (2 * exp (- (2 * INR n * eps ^ 2))))
  /\ (is_mean K (fun s => back 1%nat (dr s)) m ->
     rare (n * K) (fun t => eps <= Rabs (back n (many K dr t) - m)) (2 * exp (- (2 * INR n * eps ^ 2)))).
Proof.
  intros nev n spot tmin tmax pmin pmax mu P K dr m eps Hn Hpos Hmu HP Hv HD He front back.
  pose proof (fun s => film_numbers nev spot tmin tmax pmin pmax mu P (dr s) Hn Hmu HP Hv (HD s)) as B. cbv zeta in B.
  split; intros M.
  - destruct (hoeffding K (fun s => front 1%nat (dr s)) m n (fun t => front n (many K dr t)) eps Hpos (fun s => proj1 (proj2 (proj2 (B s))))
      (fun t => proj1 (fl_average nev spot tmin tmax pmin pmax mu P Hn Hmu HP K dr n t Hpos HD)) M He) as (Z & z & Z0 & Z1 & ZM & Zb).
    exact (dominated _ _ Z z _ Z0 Z1 ZM Zb).
  - destruct (hoeffding K (fun s => back 1%nat (dr s)) m n (fun t => back n (many K dr t)) eps Hpos (fun s => proj1 (proj2 (proj2 (proj2 (B s)))))
      (fun t => proj2 (fl_average nev spot tmin tmax pmin pmax mu P Hn Hmu HP K dr n t Hpos HD)) M He) as (Z & z & Z0 & Z1 & ZM & Zb).
    exact (dominated _ _ Z z _ Z0 Z1 ZM Zb).
Qed.
Print Assumptions C164_film_let_through.

(** Films: the reflectance and the transmittance themselves, up to the mean
    light f that the surfaces send back into the film. *)
Theorem C164_film : forall nevents n spot tmin tmax pmin pmax mu_scat P K dr m f eps,
  (0 < nevents)%nat -> (0 < n)%nat -> 0 < mu_scat -> plain_film P -> full_detection P -> valid_params P 1 ->
  (forall s n i, 0 <= d_u (dr s) n i < 1) -> 0 < eps ->
  let run k D := film_run nevents k spot tmin tmax pmin pmax mu_scat P D in
  (forall s, exists o, run 1%nat (dr s) = Ok (Some o)) ->
  is_mean K (fun s => sent_back_of (run 1%nat (dr s))) f ->
  (is_mean K (fun s => refl_of (run 1%nat (dr s))) m ->
     rare (n * K) (fun t => f + 2 * eps <= Rabs (refl_of (run n (many K dr t)) - m)) (4 * exp (- (2 * INR n * eps ^ 2))))
  /\ (is_mean K (fun s => trans_of (run 1%nat (dr s))) m ->
     rare (n * K) (fun t => f + 2 * eps <= Rabs (trans_of (run n (many K dr t)) - m)) (4 * exp (- (2 * INR n * eps ^ 2)))).
Proof.
  intros nev n spot tmin tmax pmin pmax mu P K dr m f eps Hn Hpos Hmu HP Hfd Hv HD He run Hone Mf.
  pose proof (fun s => film_numbers nev spot tmin tmax pmin pmax mu P (dr s) Hn Hmu HP Hv (HD s)) as B. cbv zeta in B.
  assert (G : forall X : result (option outcome) -> R, (forall t, Rabs (X (run n (many K dr t)) - sums K (fun s => X (run 1%nat (dr s))) n t / INR n)
      <= sums K (fun s => sent_back_of (run 1%nat (dr s))) n t / INR n) -> (forall s, 0 <= X (run 1%nat (dr s)) <= 1) ->
    is_mean K (fun s => X (run 1%nat (dr s))) m ->
    rare (n * K) (fun t => f + 2 * eps <= Rabs (X (run n (many K dr t)) - m)) (4 * exp (- (2 * INR n * eps ^ 2)))).
  { intros X HX HB M.
    destruct (hoeffding K (fun s => X (run 1%nat (dr s))) m n (fun t => sums K (fun s => X (run 1%nat (dr s))) n t / INR n) eps Hpos HB (fun _ => eq_refl) M He)
      as (Z & z & Z0 & Z1 & ZM & Zb).
    destruct (hoeffding K (fun s => sent_back_of (run 1%nat (dr s))) f n (fun t => sums K (fun s => sent_back_of (run 1%nat (dr s))) n t / INR n) eps Hpos
      (fun s => proj2 (proj2 (proj2 (proj2 (B s))))) (fun _ => eq_refl) Mf He) as (Y & y & Y0 & Y1 & YM & Yb).
    apply (dominated _ _ (fun t => Z t + Y t) (z + y)); [intros t; pose proof (Z0 t); pose proof (Y0 t); lra| |exact (is_mean_plus _ _ _ _ _ ZM YM)|lra].
    intros t Ht. specialize (HX t).
    pose proof (Z0 t) as Zt. pose proof (Y0 t) as Yt. specialize (Z1 t). specialize (Y1 t).
    clear - Ht HX Zt Yt Z1 Y1.
    set (a := X (run n (many K dr t))) in *. set (b := sums K (fun s => X (run 1%nat (dr s))) n t / INR n) in *.
    set (c := sums K (fun s => sent_back_of (run 1%nat (dr s))) n t / INR n) in *. clearbody a b c.
    destruct (Rle_lt_dec eps (Rabs (b - m))) as [L|L]; [specialize (Z1 L); lra|].
    destruct (Rle_lt_dec eps (Rabs (c - f))) as [L'|L']; [specialize (Y1 L'); lra|]. exfalso.
    pose proof (Rabs_triang (a - b) (b - m)) as T1. replace (a - b + (b - m)) with (a - m) in T1 by ring.
    pose proof (Rle_abs (c - f)). lra. }
  split; apply G; try (intros t; apply (fl_close nev spot tmin tmax pmin pmax mu P Hn Hmu HP Hfd Hv K dr n t Hpos HD Hone)); apply B.
Qed.
Print Assumptions C164_film.

(** So n >= ln(2/delta) / (2 eps^2) trajectories put a sphere's reflectance
    within eps of its mean with a probability of at least 1 - delta. *)
Theorem C164_enough : forall nevents n spot mu_scat P K dr m eps delta,
  (0 < nevents)%nat -> (0 < n)%nat -> 0 < p_thickness P -> 0 < spot <= p_thickness P -> 0 < mu_scat -> 0 <= p_muabs P ->
  p_boundary P = sphere -> p_run P = false -> plain P -> full_detection P -> valid_params P 1 -> 0 < p_nmedium P <= p_nsample P ->
  (forall s, good_draws (dr s)) -> 0 < eps -> 0 < delta -> ln (2 / delta) / (2 * eps ^ 2) <= INR n ->
  is_mean K (fun s => refl_of (sphere_run nevents 1 spot mu_scat P (dr s))) m ->
  rare (n * K) (fun t => eps <= Rabs (refl_of (sphere_run nevents n spot mu_scat P (many K dr t)) - m)) delta.
Proof.
  intros nev n spot mu P K dr m eps delta Hn Hpos Hd Hsp Hmu Ha Hb Hr Hp Hfd Hv Hns HD He Hdl HN M.
  apply (rare_le _ _ (2 * exp (- (2 * INR n * eps ^ 2)))).
  - exact (proj1 (C164_sphere nev n spot mu P K dr m eps Hn Hpos Hd Hsp Hmu Ha Hb Hr Hp Hfd Hv Hns HD He) M).
  - pose proof (pow_lt eps 2 He) as P1. assert (P2 : 0 < 2 * eps ^ 2) by lra.
    assert (L : ln (2 / delta) <= 2 * INR n * eps ^ 2).
    { apply Rcomplements.Rle_div_l in HN; [|exact P2]. lra. }
    assert (D2 : 0 < 2 / delta) by (apply Rdiv_lt_0_compat; lra).
    assert (Q : exp (- (2 * INR n * eps ^ 2)) <= exp (- ln (2 / delta))).
    { destruct (Rle_lt_or_eq_dec _ _ L) as [L'| ->]; [left; apply exp_increasing; lra|right; reflexivity]. }
    assert (E : exp (- ln (2 / delta)) = delta / 2) by (rewrite exp_Ropp, exp_ln by exact D2; field; lra). lra.
Qed.
Print Assumptions C164_enough.

(** 100 trajectories through a sphere, each ending early or late. *)
Example C164_case : let dr := coin (drawn (1 / 4)) (drawn (3 / 4)) in
  exists m, is_mean 1 (fun s => refl_of (sphere_run 5 1 10 (1 / 10) still_call (dr s))) m
       /\ rare (100 * 1) (fun t => 1 / 5 <= Rabs (refl_of (sphere_run 5 100 10 (1 / 10) still_call (many 1 dr t)) - m)) (2 * exp (- 8)).
Proof.
  intros dr. destruct C157_case as (G & Hp & Hf & Hv & m & v & M1 & _). exists m. split; [exact M1|].
  pose proof (proj1 (C164_sphere 5 100 10 (1 / 10) still_call 1 dr m (1 / 5) ltac:(lia) ltac:(lia) ltac:(cbn; lra) ltac:(cbn; lra) ltac:(lra)
    ltac:(cbn; lra) eq_refl eq_refl Hp Hf Hv ltac:(cbn; lra) G ltac:(lra)) M1) as Q.
  replace (- (2 * INR 100 * (1 / 5) ^ 2)) with (- 8) in Q; [exact Q|].
  replace (INR 100) with 100 by (cbn; lra). lra.
Qed.
(** An absorbing film. *)
Example C164_film_case : let P := direct_film (1 / 10) in let dr := coin (drawn (1 / 4)) (drawn (3 / 4)) in
  exists f m, rare (1000 * 1) (fun t => f + 2 * (1 / 10) <= Rabs (refl_of (film_run 1 1000 1 0 0 0 (2 * PI) 1 P (many 1 dr t)) - m))
    (4 * exp (- (2 * INR 1000 * (1 / 10) ^ 2))).
Proof.
  intros P dr. destruct C157_film_case as (HP & Hf & Hv & _ & G & Hone & f & m & Mf & M). exists f, m.
  exact (proj1 (C164_film 1 1000 1 0 0 0 (2 * PI) 1 P 1 dr m f (1 / 10) ltac:(lia) ltac:(lia) ltac:(lra) HP Hf Hv G ltac:(lra) Hone Mf) M).
Qed.
(** [rare] bounds a probability: a uniform number is below 1/2 with probability
    1/2, and no smaller bound holds. *)
Example C164_rare b : rare 1 (fun t => t 0%nat < 1 / 2) b <-> 1 / 2 <= b.
Proof.
  assert (I : is_mean 1 (fun t => if (Rltb 0 (t 0%nat) && Rltb (t 0%nat) (1 / 2))%bool then 1 else 0) (1 / 2)).
  { exists (fun _ => 1 / 2). split; [|apply is_mean_const]. intros t.
    pose proof (ind_integral 0 (1 / 2) 1 ltac:(lra) ltac:(lra)) as Q. replace (1 * (1 / 2 - 0)) with (1 / 2) in Q by ring.
    apply (is_RInt_ext _ (fun x => if (Rltb 0 (upd t 0 x 0%nat) && Rltb (upd t 0 x 0%nat) (1 / 2))%bool then 1 else 0)) in Q; [exact Q|].
    intros x _. now rewrite upd_same. }
  split.
  - intros Hr. refine (rare_part _ _ _ _ _ Hr _ _ I).
    + intros t. destruct (_ && _)%bool; lra.
    + intros t Ht. destruct (Rltb 0 (t 0%nat)) eqn:E1; cbn [andb] in Ht; [|lra]. destruct (Rltb (t 0%nat) (1 / 2)) eqn:E2; [|lra].
      now apply Rltb_true.
  - intros Hb. exists (fun t => if Rltb (t 0%nat) (1 / 2) then 1 else 0), (1 / 2). split; [|split; [|split; [|exact Hb]]].
    + intros t. destruct (Rltb _ _); lra.
    + intros t Ht. rewrite (proj2 (Rltb_true _ _)) by exact Ht. lra.
    + exists (fun _ => 1 / 2). split; [|apply is_mean_const]. intros t.
      pose proof (ind_integral 0 (1 / 2) 1 ltac:(lra) ltac:(lra)) as Q. replace (1 * (1 / 2 - 0)) with (1 / 2) in Q by ring.
      refine (is_RInt_ext _ _ 0 1 _ _ Q). intros x Hx. rewrite Rmin_left, Rmax_right in Hx by lra. rewrite upd_same.
      rewrite (proj2 (Rltb_true 0 x)) by lra. reflexivity.
Qed.
