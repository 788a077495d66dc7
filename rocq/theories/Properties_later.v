(** C165: how many events are enough.  Vocabulary in Spec_later.v,
    Spec_estimate.v, Spec_direct.v and Spec_mean.v. *)
From Coq Require Import Lra Lia Psatz Reals List.
From Verif Require Import Num Spec Spec_detector Spec_mean Spec_direct Spec_estimate Spec_later M_init M_montecarlo M_detector M_simulation
  L_num L_outcomes L_meta L_meta3 L_meta4 L_pool L_simulation L_estimate L_later Properties_detector Properties_simulation
  Properties_direct Properties_estimate.
Import ListNotations.
Open Scope R_scope.

(** Films, the same draws, more events: no trajectory that has left comes
    back, the light let through at each surface does not decrease, and it grows
    by no more than the share of the trajectories still inside. *)
Theorem C165_film_let_through : forall nevents more n spot tmin tmax pmin pmax mu_scat P D,
  (0 < nevents <= more)%nat -> (0 < n)%nat -> 0 < mu_scat -> plain_film P -> (forall n i, 0 <= d_u D n i < 1) ->
  let run k := film_run k n spot tmin tmax pmin pmax mu_scat P D in
  0 <= unfinished (run more) <= unfinished (run nevents) /\ unfinished (run nevents) <= 1
  /\ front_of (run nevents) <= front_of (run more) /\ back_of (run nevents) <= back_of (run more)
  /\ (front_of (run more) - front_of (run nevents)) + (back_of (run more) - back_of (run nevents)) <= unfinished (run nevents).
Proof.
  intros nev nev' n spot tmin tmax pmin pmax mu P D Hn Hpos Hmu HP Hu run. assert (HI : 0 < INR n) by now apply lt_0_INR.
  destruct (film_more nev nev' n spot tmin tmax pmin pmax mu P D Hn Hpos Hmu HP Hu)
    as (x & y & p & q & z & X1 & X2 & X3 & X4 & X5 & X6 & X7 & Y1 & Y2 & Y3 & Y4 & Y5 & Y6 & Y7).
  destruct (film_known n spot tmin tmax pmin pmax mu P D Hmu HP Hu nev ltac:(lia)) as [_ K].
  destruct (film_known n spot tmin tmax pmin pmax mu P D Hmu HP Hu nev' ltac:(lia)) as [_ K'].
  destruct (fl_split nev spot tmin tmax pmin pmax mu P ltac:(lia) Hmu HP n D Hpos Hu) as [E1 E2].
  destruct (fl_split nev' spot tmin tmax pmin pmax mu P ltac:(lia) Hmu HP n D Hpos Hu) as [E1' E2'].
  unfold run. rewrite E1, E2, E1', E2', Y1, Y2. clear E1 E2 E1' E2'. cbv zeta in K, K'.
  pose proof (still_range (fun i => film_view P (fl_traj nev spot tmin tmax pmin pmax mu P D i)) (seq 0 n)) as Sr. rewrite seq_length in Sr.
  pose proof (still_range (fun i => film_view P (fl_traj nev' spot tmin tmax pmin pmax mu P D i)) (seq 0 n)) as Sr'. rewrite seq_length in Sr'.
  set (S := total (map (fun i => still (film_view P (fl_traj nev spot tmin tmax pmin pmax mu P D i))) (seq 0 n))) in *.
  set (S' := total (map (fun i => still (film_view P (fl_traj nev' spot tmin tmax pmin pmax mu P D i))) (seq 0 n))) in *.
  set (U := unfinished (film_run nev n spot tmin tmax pmin pmax mu P D)) in *.
  set (U' := unfinished (film_run nev' n spot tmin tmax pmin pmax mu P D)) in *.
  assert (B : forall s, 0 <= s <= INR n -> 0 <= s / INR n <= 1).
  { intros s Hs. split; [apply Rmult_le_pos; [lra|left; now apply Rinv_0_lt_compat]|apply Rcomplements.Rle_div_l; lra]. }
  assert (M : forall s t, s <= t -> s / INR n <= t / INR n) by (intros s t H; apply Rmult_le_compat_r; [left; now apply Rinv_0_lt_compat|exact H]).
  pose proof (B S Sr) as BS. pose proof (B S' Sr') as BS'. pose proof (M S' S ltac:(lra)) as MS.
  assert (HU : S / INR n <= U <= 1 /\ 0 <= U' <= U).
  { destruct K as [(o & _ & -> & K0)|(-> & _ & K0)], K' as [(o' & _ & -> & K0')|(-> & _ & K0')]; try lra. }
  split; [lra|]. split; [lra|]. split; [apply M; lra|]. split; [apply M; lra|].
  apply Rle_trans with (S / INR n); [|lra]. unfold Rdiv. rewrite <- !Rmult_minus_distr_r, <- Rmult_plus_distr_r. apply M. lra.
Qed.
Print Assumptions C165_film_let_through.

(** The reflectance and the transmittance of the film: what the surfaces send
    back is shared out anew. *)
Theorem C165_film : forall nevents more n spot tmin tmax pmin pmax mu_scat P D,
  (0 < nevents <= more)%nat -> (0 < n)%nat -> 0 < mu_scat -> plain_film P -> full_detection P -> valid_params P 1 ->
  (forall n i, 0 <= d_u D n i < 1) ->
  let run k := film_run k n spot tmin tmax pmin pmax mu_scat P D in
  0 < front_of (run nevents) + back_of (run nevents) ->
  let bound := unfinished (run nevents) * (1 / 2 + sent_back_of (run nevents) / (front_of (run nevents) + back_of (run nevents))) in
  Rabs (refl_of (run more) - refl_of (run nevents)) <= bound
  /\ Rabs (trans_of (run more) - trans_of (run nevents)) <= bound.
Proof.
  intros nev nev' n spot tmin tmax pmin pmax mu P D Hn Hpos Hmu HP Hfd Hv Hu run H0 bound. assert (HI : 0 < INR n) by now apply lt_0_INR.
  unfold bound. clear bound. unfold run in *. clear run.
  destruct (film_more nev nev' n spot tmin tmax pmin pmax mu P D Hn Hpos Hmu HP Hu)
    as (x & y & p & q & z & X1 & X2 & X3 & X4 & X5 & X6 & X7 & Y1 & Y2 & Y3 & Y4 & Y5 & Y6 & Y7).
  destruct (film_known n spot tmin tmax pmin pmax mu P D Hmu HP Hu nev ltac:(lia)) as [G K].
  destruct (film_known n spot tmin tmax pmin pmax mu P D Hmu HP Hu nev' ltac:(lia)) as [_ K'].
  destruct (fl_split nev spot tmin tmax pmin pmax mu P ltac:(lia) Hmu HP n D Hpos Hu) as [E1 E2].
  rewrite E1, E2 in *. cbv zeta in K, K'.
  set (Rp := total (map (fun i => c_rp P false (film_view P (fl_traj nev spot tmin tmax pmin pmax mu P D i))) (seq 0 n))) in *.
  set (Tp := total (map (fun i => c_tp P false (film_view P (fl_traj nev spot tmin tmax pmin pmax mu P D i))) (seq 0 n))) in *.
  set (Br := total (map (fun i => c_rf P false (film_view P (fl_traj nev spot tmin tmax pmin pmax mu P D i))) (seq 0 n))) in *.
  set (Bt := total (map (fun i => c_tf P false (film_view P (fl_traj nev spot tmin tmax pmin pmax mu P D i))) (seq 0 n))) in *.
  set (Ab := total (map (fun i => c_ab P false (film_view P (fl_traj nev spot tmin tmax pmin pmax mu P D i))) (seq 0 n))) in *.
  set (Sw := total (map (fun i => c_sw P false (film_view P (fl_traj nev spot tmin tmax pmin pmax mu P D i))) (seq 0 n))) in *.
  set (Di := total (map (fun i => c_di P false (film_view P (fl_traj nev spot tmin tmax pmin pmax mu P D i))) (seq 0 n))) in *.
  set (S := total (map (fun i => still (film_view P (fl_traj nev spot tmin tmax pmin pmax mu P D i))) (seq 0 n))) in *.
  assert (N : forall f : nat -> R, (forall i, In i (seq 0 n) -> 0 <= f i) -> 0 <= total (map f (seq 0 n))).
  { intros f. generalize (seq 0 n). intros l; induction l as [|i l IH]; intros H; cbn [map total]; [lra|].
    pose proof (H i (or_introl eq_refl)). pose proof (IH ltac:(intros; apply H; now right)). lra. }
  pose proof (N _ (fun i Hi => proj1 (G i Hi))) as P1. fold Rp in P1. pose proof (N _ (fun i Hi => proj1 (proj2 (G i Hi)))) as P2. fold Tp in P2.
  pose proof (N _ (fun i Hi => proj1 (proj2 (proj2 (G i Hi))))) as P3. fold Br in P3. pose proof (N _ (fun i Hi => proj1 (proj2 (proj2 (proj2 (G i Hi)))))) as P4. fold Bt in P4.
  pose proof (N _ (fun i Hi => proj2 (proj2 (proj2 (proj2 (G i Hi)))))) as P5. fold Ab in P5.
  assert (RT : 0 < Rp + Tp).
  { replace (Rp / INR n + Tp / INR n) with ((Rp + Tp) / INR n) in H0 by (field; lra).
    apply Rmult_lt_reg_r with (/ INR n); [now apply Rinv_0_lt_compat|]. rewrite Rmult_0_l. exact H0. }
  destruct K as [(o & Eo & EU & _)|(_ & _ & K0)]; [|lra]. destruct K' as [(o' & Eo' & _ & _)|(_ & _ & K0')]; [|rewrite Y5, Y1, Y2 in K0'; lra].
  destruct (fl_answer nev spot tmin tmax pmin pmax mu P ltac:(lia) Hmu HP Hfd Hv n D o Hpos Hu Eo) as (_ & _ & R1 & T1 & F1).
  destruct (fl_answer nev' spot tmin tmax pmin pmax mu P ltac:(lia) Hmu HP Hfd Hv n D o' Hpos Hu Eo') as (_ & _ & R1' & T1' & _).
  rewrite EU, Eo, Eo'. cbn [refl_of trans_of].
  assert (HB : p_boundary P = film) by apply HP.
  assert (SF : forall k,
     let v := map (fun i => film_view P (fl_traj k spot tmin tmax pmin pmax mu P D i)) (seq 0 n) in
     let T f := total (map (fun i => f (film_view P (fl_traj k spot tmin tmax pmin pmax mu P D i))) (seq 0 n)) in
     let kn := T (c_ab P false) + T (c_rp P false) + T (c_tp P false) in
     total (map (own_r P false) v) + shared_r P false v
       = T (c_rp P false) + T (c_sw P false) * (1 / 2) + T (c_di P false) + (T (c_rf P false) * (T (c_rp P false) / kn) + T (c_tf P false) * (T (c_tp P false) / kn))
     /\ total (map (own_t P false) v) + shared_t P false v
       = T (c_tp P false) + T (c_sw P false) * (1 / 2) + 0 + (T (c_tf P false) * (T (c_rp P false) / kn) + T (c_rf P false) * (T (c_tp P false) / kn))
     /\ back_r P false v + back_t P false v = T (c_rf P false) + T (c_tf P false)).
  { intros k v T kn.
    assert (F : forall g, T g = total (map g v)) by (intros g; unfold v, T; now rewrite map_map).
    assert (A1 : total (map (own_r P false) v) = T (c_rp P false) + T (c_sw P false) * (1 / 2) + T (c_di P false)).
    { rewrite !F. unfold own_r. generalize v. intros l; induction l as [|a l IH]; cbn [map total]; [lra|]. rewrite IH. lra. }
    assert (A2 : total (map (own_t P false) v) = T (c_tp P false) + T (c_sw P false) * (1 / 2)).
    { rewrite !F. unfold own_t. generalize v. intros l; induction l as [|a l IH]; cbn [map total]; [lra|]. rewrite IH. lra. }
    assert (A3 : c_known P false v = kn).
    { unfold c_known, kn. rewrite !F. generalize v. intros l; induction l as [|a l IH]; cbn [map total]; [lra|]. rewrite IH. lra. }
    unfold shared_r, shared_t. rewrite HB. unfold c_rfrac, c_tfrac, back_r, back_t. rewrite A1, A2, A3, <- !F. repeat split; ring. }
  destruct (SF nev) as (SF1 & SF2 & SF3). destruct (SF nev') as (SF1' & SF2' & _). clear SF. cbv zeta in *.
  rewrite SF1 in R1. rewrite SF2 in T1. rewrite SF3 in F1. rewrite SF1', Y1, Y2, Y3, Y4, Y5, Y6, Y7 in R1'. rewrite SF2', Y1, Y2, Y3, Y4, Y5, Y6 in T1'.
  clear SF1 SF2 SF3 SF1' SF2' Y1 Y2 Y3 Y4 Y5 Y6 Y7. fold Rp Tp Br Bt Ab Sw Di in R1, T1, F1, R1', T1'.
  set (sb := sent_back_of (Ok (Some o))) in *.
  assert (Es : sb / (Rp / INR n + Tp / INR n) = (Br + Bt) / (Rp + Tp)).
  { replace sb with ((Br + Bt) / INR n) by (rewrite <- F1; field; lra). field. split; lra. }
  rewrite Es.
  assert (Fin : forall w s, 0 <= w -> Rabs (INR n * s) <= (x + y + p + q + z) * w -> Rabs s <= S / INR n * w).
  { intros w s Hw Hs. rewrite Rabs_mult, (Rabs_pos_eq (INR n)) in Hs by lra.
    apply Rmult_le_reg_l with (INR n); [exact HI|]. replace (INR n * (S / INR n * w)) with (S * w) by (field; lra).
    apply Rle_trans with (1 := Hs). apply Rmult_le_compat_r; [exact Hw|lra]. }
  assert (W0 : 0 <= 1 / 2 + (Br + Bt) / (Rp + Tp)).
  { assert (0 <= (Br + Bt) / (Rp + Tp)) by (apply Rmult_le_pos; [lra|left; now apply Rinv_0_lt_compat]). lra. }
  split; apply Fin; try exact W0; rewrite Rmult_minus_distr_l.
  - rewrite R1, R1'. replace (Ab + z + (Rp + x) + (Tp + y)) with (Ab + Rp + Tp + (x + y + z)) by ring.
    apply (more_known Rp Tp Sw Di Br Bt Ab x y p q z (Ab + Rp + Tp)); try assumption; lra.
  - rewrite T1, T1'. replace (Ab + z + (Rp + x) + (Tp + y)) with (Ab + Tp + Rp + (y + x + z)) by ring.
    replace (Ab + Rp + Tp) with (Ab + Tp + Rp) by ring.
    pose proof (more_known Tp Rp Sw 0 Br Bt Ab y x p q z (Ab + Tp + Rp) P2 P1 P3 P4 P5 X2 X1 X3 X4 X5 ltac:(lra) ltac:(lra)) as MK. cbv zeta in MK.
    replace (y + x + p + q + z) with (x + y + p + q + z) in MK by ring.
    match type of MK with Rabs ?a <= ?b => match goal with |- Rabs ?c <= ?d => replace c with a by ring; replace d with b by (field; lra) end end. exact MK.
Qed.
Print Assumptions C165_film.

(** Spheres (without run_fresnel_traj): the reflectance and the transmittance
    change by at most half of the share of the trajectories still inside. *)
Theorem C165_sphere : forall nevents more n spot mu_scat P D,
  (0 < nevents <= more)%nat -> (0 < n)%nat -> 0 < mu_scat -> 0 <= p_muabs P -> 0 < p_thickness P -> 0 < spot <= p_thickness P ->
  p_boundary P = sphere -> p_run P = false -> plain P -> full_detection P -> 0 < p_nmedium P <= p_nsample P -> valid_params P 1 ->
  good_draws D ->
  let run k := sphere_run k n spot mu_scat P D in
  0 <= unfinished (run more) <= unfinished (run nevents) /\ unfinished (run nevents) <= 1
  /\ Rabs (refl_of (run more) - refl_of (run nevents)) <= unfinished (run nevents) / 2
  /\ Rabs (trans_of (run more) - trans_of (run nevents)) <= unfinished (run nevents) / 2.
Proof.
  intros nev nev' n spot mu P D Hn Hpos Hmu Ha Hd Hsp Hb Hr Hp Hfd Hns Hv HD run. assert (HI : 0 < INR n) by now apply lt_0_INR.
  destruct (sphere_more nev nev' n spot mu P D Hn Hpos Hmu Ha Hd Hsp Hb Hr Hp Hfd Hns Hv HD)
    as (x & y & p & q & z & X1 & X2 & X3 & X4 & X5 & X6 & X7 & Y1 & Y2 & Y3 & Y4 & Y5 & Y6 & Y7).
  destruct (sphere_seen nev nev' n spot mu P D Hn Hpos Hmu Ha Hd Hsp Hb Hr Hp Hfd Hns Hv HD nev ltac:(lia)) as (_ & o & Eo & U).
  destruct (sphere_seen nev nev' n spot mu P D Hn Hpos Hmu Ha Hd Hsp Hb Hr Hp Hfd Hns Hv HD nev' ltac:(lia)) as (_ & o' & Eo' & U').
  destruct (sp_split nev spot mu P ltac:(lia) Hmu Ha Hd Hsp Hb Hr Hp Hfd Hns Hv n D Hpos HD) as [E1 E2].
  destruct (sp_split nev' spot mu P ltac:(lia) Hmu Ha Hd Hsp Hb Hr Hp Hfd Hns Hv n D Hpos HD) as [E1' E2'].
  unfold run. rewrite E1, E2, E1', E2'. rewrite Eo, Eo', U, U'. clear E1 E2 E1' E2' Eo Eo' U U' o o'.
  pose proof (still_range (fun i => film_view P (sp_traj nev spot mu P D i)) (seq 0 n)) as Sr. rewrite seq_length in Sr.
  assert (SF : forall k,
     let T f := total (map (fun i => f (film_view P (sp_traj k spot mu P D i))) (seq 0 n)) in
     T (sp_r P) = T (c_rp P false) + T (c_sw P false) * (1 / 2) + T (c_di P false) + 1 / 2 * (T (c_rf P false) + T (c_tf P false))
     /\ T (sp_t P) = T (c_tp P false) + T (c_sw P false) * (1 / 2) + 1 / 2 * (T (c_rf P false) + T (c_tf P false))).
  { intros k T. unfold T. generalize (seq 0 n). intros l. split; induction l as [|a l IH]; cbn [map total]; try lra; rewrite IH; unfold sp_r, sp_t, own_r, own_t; lra. }
  destruct (SF nev) as [-> ->]. destruct (SF nev') as [-> ->]. cbv zeta. rewrite Y1, Y2, Y3, Y4, Y6, Y7. clear SF Y1 Y2 Y3 Y4 Y5 Y6 Y7.
  set (S := total (map (fun i => still (film_view P (sp_traj nev spot mu P D i))) (seq 0 n))) in *.
  set (S' := total (map (fun i => still (film_view P (sp_traj nev' spot mu P D i))) (seq 0 n))) in *.
  assert (M : forall s t, s <= t -> s / INR n <= t / INR n) by (intros s t H; apply Rmult_le_compat_r; [left; now apply Rinv_0_lt_compat|exact H]).
  assert (B : S / INR n <= 1) by (apply Rcomplements.Rle_div_l; lra).
  assert (F : forall a b, Rabs (a - b) <= S / 2 -> Rabs (a / INR n - b / INR n) <= S / INR n / 2).
  { intros a b H. replace (a / INR n - b / INR n) with ((a - b) / INR n) by (field; lra). replace (S / INR n / 2) with (S / 2 / INR n) by (field; lra).
    unfold Rdiv at 1. rewrite Rabs_mult, (Rabs_pos_eq (/ INR n)) by (left; now apply Rinv_0_lt_compat). apply M, H. }
  split; [split; [apply Rmult_le_pos; [lra|left; now apply Rinv_0_lt_compat]|apply M; lra]|]. split; [exact B|].
  split; apply F; apply Rabs_le; lra.
Qed.
Print Assumptions C165_sphere.

(** An absorbing film that one trajectory of two leaves at its first event, and
    five events instead of one. *)
Definition two_steps : draws :=
  mk_draws (fun _ => 1 / 2) (fun _ => 0) (fun _ => 0) (fun _ => 0) (fun _ _ => (0, 0)) (fun _ i => match i with O => 9 / 10 | S _ => 1 / 4 end)
    (fun _ _ _ => (0, 0)) (fun _ _ _ => 0).
Example C165_film_case : let P := direct_film (1 / 10) in let run k := film_run k 2 1 0 0 0 (2 * PI) 1 P two_steps in
  0 < front_of (run 1%nat) + back_of (run 1%nat)
  /\ Rabs (refl_of (run 5%nat) - refl_of (run 1%nat))
     <= unfinished (run 1%nat) * (1 / 2 + sent_back_of (run 1%nat) / (front_of (run 1%nat) + back_of (run 1%nat))).
Proof.
  intros P run. assert (HP : plain_film P) by (apply (C156_case (1 / 10)); lra). destruct C157_film_case as (_ & Hf & Hv & Ha & _).
  fold P in Hf, Hv, Ha.
  assert (G : forall n i, 0 <= d_u two_steps n i < 1) by (intros n i; cbn; destruct i; lra).
  assert (FB : 0 < front_of (run 1%nat) + back_of (run 1%nat)).
  { unfold run. destruct (fl_split 1 1 0 0 0 (2 * PI) 1 P ltac:(lia) ltac:(lra) HP 2 two_steps ltac:(lia) G) as [-> ->].
    cbn [seq map total]. rewrite !(fl_normal 1 0 (2 * PI) 1 P two_steps).
    destruct (one_weights 1 0 (2 * PI) 1 P ltac:(lra) HP two_steps 0 (9 / 10) G) as (A1 & _ & A3 & _ & _); [cbn; symmetry; apply frac_in; lra|].
    destruct (one_weights 1 0 (2 * PI) 1 P ltac:(lra) HP two_steps 1 (1 / 4) G) as (B1 & _ & B3 & _ & _); [cbn; symmetry; apply frac_in; lra|].
    rewrite A1, A3, B1, B3. pose proof (kn_range 1 P ltac:(lra) HP Ha (1 / 4) ltac:(lra)) as [K1 _].
    assert (C : cr 1 P (9 / 10) = true).
    { unfold cr. apply Rleb_true. cbn [P direct_film p_thickness]. rewrite frac_in by lra. unfold step_of.
      replace (1 - 9 / 10) with (/ 10) by lra. rewrite ln_Rinv by lra.
      assert (2 <= ln 10); [|lra]. rewrite <- (ln_exp 2). apply Rcomplements.ln_le; [apply exp_pos|].
      replace 2 with (1 + 1) by ring. rewrite exp_plus. pose proof exp_le_3. pose proof (exp_pos 1). nra. }
    assert (T0 : 0 < tpw 1 P (9 / 10)).
    { unfold tpw. rewrite C. destruct (surf_range P HP) as [R1 R2]. apply Rmult_lt_0_compat; [apply Rmult_lt_0_compat; [exact (proj1 R1)|exact (proj1 R2)]|apply exp_pos]. }
    replace (INR 2) with 2 by (cbn; ring). lra. }
  split; [exact FB|].
  exact (proj1 (C165_film 1 5 2 1 0 0 0 (2 * PI) 1 P two_steps ltac:(lia) ltac:(lia) ltac:(lra) HP Hf Hv G FB)).
Qed.
(** Trajectories in a sphere. *)
Example C165_sphere_case : let run k := sphere_run k 100 10 (1 / 10) still_call (drawn (1 / 4)) in
  Rabs (refl_of (run 50%nat) - refl_of (run 5%nat)) <= unfinished (run 5%nat) / 2.
Proof.
  destruct C157_case as (_ & Hp & Hf & Hv & _).
  exact (proj1 (proj2 (proj2 (C165_sphere 5 50 100 10 (1 / 10) still_call (drawn (1 / 4)) ltac:(lia) ltac:(lia) ltac:(lra) ltac:(cbn; lra) ltac:(cbn; lra)
    ltac:(cbn; lra) eq_refl eq_refl Hp Hf ltac:(cbn; lra) Hv ltac:(split; intros; cbn; lra))))).
Qed.
