(** What calc_refl_trans returns with return_extra=True, and what its
    fine_roughness argument means (C130, C131). *)
From Coq Require Import Lra Lia Psatz.
From Verif Require Import L_outcomes Properties_detector.
Open Scope R_scope.

(** The weight that trajectory [t] still has when it leaves at event [k]
    (0: it does not leave this way). *)
Definition weight_at (t : traj) (k : nat) : R :=
  match k with O => 0 | S j => nth j (t_w t) 0 end.

Lemma crt_inv fuel angs steps P ft d trs o :
  calc_refl_trans fuel angs steps P ft d trs = Ok (Some o) ->
  exists q, first_pass P ft trs = Ok (Some q)
    /\ exists r t rp tp g, o = make_outcome q r t rp tp g.
Proof.
  destruct fuel as [|fuel]; [discriminate|]. cbn [calc_refl_trans].
  destruct (first_pass P ft trs) as [[q|]|e]; cbn [bind]; try discriminate.
  intros H. exists q. split; [reflexivity|]. destruct (_ && _ && _).
  - destruct (rerun_all _ _ _ _ _ _) as [trs'|e]; [|discriminate]. cbn [bind] in H.
    destruct (calc_refl_trans fuel _ _ _ _ _ _) as [[o'|]|e]; [|discriminate|discriminate]. cbn [bind] in H.
    assert (H' := f_equal (fun x => match x with Ok (Some y) => y | _ => o end) H). cbn in H'. subst o.
    repeat eexists.
  - destruct (distribute_ambig_traj_weights _ _ _ _ _ _ _ _ _ _ _ _) as [[[[r t] rp] tp]|]; [|discriminate].
    assert (H' := f_equal (fun x => match x with Ok (Some y) => y | _ => o end) H). cbn in H'. subst o.
    repeat eexists.
Qed.

Lemma nth_map_seq_R (f : nat -> R) n i : (i < n)%nat -> nth i (map f (seq 0 n)) 0 = f i.
Proof.
  intros Hi. rewrite (nth_indep _ 0 (f 0%nat)) by (rewrite map_length, seq_length; exact Hi).
  rewrite map_nth, seq_nth by exact Hi. reflexivity.
Qed.
Lemma nth_map_seq_n (f : nat -> nat) n i : (i < n)%nat -> nth i (map f (seq 0 n)) 0%nat = f i.
Proof.
  intros Hi. rewrite (nth_indep _ 0%nat (f 0%nat)) by (rewrite map_length, seq_length; exact Hi).
  rewrite map_nth, seq_nth by exact Hi. reflexivity.
Qed.

(** The values of one trajectory, read off the return tuple. *)
Definition inc_of (o : outcome) i := nth i (o_inc_refl o) 0.
Definition rpass_of (o : outcome) i := nth i (o_refl_pass o) 0.
Definition tpass_of (o : outcome) i := nth i (o_trans_pass o) 0.
Definition rback_of (o : outcome) i := nth i (o_refl_fresnel o) 0.
Definition tback_of (o : outcome) i := nth i (o_trans_fresnel o) 0.

Lemma outcome_slots fuel angs steps P ft d n T o :
  good_params P n ->
  calc_refl_trans fuel angs steps P ft d (map T (seq 0 n)) = Ok (Some o) ->
  exists inc di, inc_ok ft n inc /\ di_ok P n inc di
    /\ (forall i, (i < n)%nat -> 0 <= sl_ar P T i <= PI / 2)
    /\ (forall i, (i < n)%nat -> 0 <= sl_at P T i <= PI / 2)
    /\ o_inc_refl o = map (fun i => di i / INR n) (seq 0 n)
    /\ o_refl_pass o = map (fun i => sl_rp P T inc i / INR n) (seq 0 n)
    /\ o_trans_pass o = map (fun i => sl_tp P T inc i / INR n) (seq 0 n)
    /\ o_refl_fresnel o = map (fun i => sl_rf P T inc i / INR n) (seq 0 n)
    /\ o_trans_fresnel o = map (fun i => sl_tf P T inc i / INR n) (seq 0 n)
    /\ o_refl_i o = map (sl_ri P T) (seq 0 n) /\ o_trans_i o = map (sl_ti P T) (seq 0 n).
Proof.
  intros Hg H. apply crt_inv in H as (q & Hq & r & t & rp & tp & g & ->).
  destruct (first_pass_slots P ft n T q Hg Hq) as (inc & di & Hinc & Hdi & -> & Har & Hat).
  exists inc, di. split; [exact Hinc|]. split; [exact Hdi|]. split; [exact Har|]. split; [exact Hat|].
  unfold make_outcome, sl_pass, sl_exit.
  cbn [o_inc_refl o_refl_pass o_trans_pass o_refl_fresnel o_trans_fresnel o_refl_i o_trans_i
       q_trs q_refl_i q_trans_i q_inc_refl_det q_exit x_refl_pass x_trans_pass x_refl_fresnel x_trans_fresnel].
  rewrite !map_map, !map_length, !seq_length. repeat split; reflexivity.
Qed.

(** C130.  Each trajectory carries 1/n of the light; what is reflected at the
    entrance, what passes the surface in either direction and what is reflected
    back at the surface are parts of it. *)
Theorem C130_shares : forall fuel angs steps P d n T o i,
  valid_params P n -> (forall i, (i < n)%nat -> col_ok 1 (T i)) ->
  calc_refl_trans fuel angs steps P false d (map T (seq 0 n)) = Ok (Some o) -> (i < n)%nat ->
  0 <= inc_of o i /\ 0 <= rpass_of o i /\ 0 <= tpass_of o i /\ 0 <= rback_of o i /\ 0 <= tback_of o i
  /\ inc_of o i + rpass_of o i + tpass_of o i + rback_of o i + tback_of o i <= 1 / INR n.
Proof.
  intros fuel angs steps P d n T o i Hv HT H Hi. pose proof (valid_good P n Hv) as Hg.
  destruct (outcome_slots _ _ _ _ _ _ _ _ _ Hg H) as (inc & di & Hinc & Hdi & Har & Hat & E1 & E2 & E3 & E4 & E5 & _).
  unfold inc_of, rpass_of, tpass_of, rback_of, tback_of. rewrite E1, E2, E3, E4, E5, !nth_map_seq_R by exact Hi.
  destruct (slot_bounds P false n T inc Hg Hinc Har Hat 1 i Hi Rle_0_1 (HT i Hi)) as (B1 & B2 & B3 & B4 & B5 & B6 & B7 & B8).
  destruct (Hinc i Hi) as [Hin _].
  assert (Hd : 0 <= di i <= 1 - inc i) by (destruct Hdi as [Hdi _]; destruct (Hdi i Hi) as [-> | ->]; lra).
  assert (HI : 0 < INR n) by (apply lt_0_INR; lia).
  assert (HI' : 0 < / INR n) by (now apply Rinv_0_lt_compat).
  unfold Rdiv. rewrite <- !Rmult_plus_distr_r.
  assert (S1 : sl_rp P T inc i + sl_rf P T inc i = sl_rw P T inc i) by (unfold sl_rf; lra).
  assert (S2 : sl_tp P T inc i + sl_tf P T inc i = sl_tw P T inc i) by (unfold sl_tf; lra).
  repeat split; try (apply Rmult_le_pos; lra). apply Rmult_le_compat_r; lra.
Qed.
Print Assumptions C130_shares.

(** The light that arrives at the surface is the light let in at the entrance
    times the weight left; the surface only splits it.  (Plain detection.) *)
Theorem C130_split : forall fuel angs steps P d n T o i,
  valid_params P n -> p_kz0rot P = None -> full_detection P ->
  calc_refl_trans fuel angs steps P false d (map T (seq 0 n)) = Ok (Some o) -> (i < n)%nat ->
  rpass_of o i + rback_of o i = (1 / INR n - inc_of o i) * weight_at (T i) (nth i (o_refl_i o) 0%nat)
  /\ tpass_of o i + tback_of o i = (1 / INR n - inc_of o i) * weight_at (T i) (nth i (o_trans_i o) 0%nat).
Proof.
  intros fuel angs steps P d n T o i Hv Hk Hfd H Hi. pose proof (valid_good P n Hv) as Hg.
  destruct (outcome_slots _ _ _ _ _ _ _ _ _ Hg H) as (inc & di & Hinc & Hdi & Har & Hat & E1 & E2 & E3 & E4 & E5 & E6 & E7).
  unfold inc_of, rpass_of, tpass_of, rback_of, tback_of.
  rewrite E1, E2, E3, E4, E5, E6, E7, !nth_map_seq_R, !nth_map_seq_n by exact Hi.
  assert (HI : 0 < INR n) by (apply lt_0_INR; lia).
  destruct Hdi as [_ Hdi]. rewrite (Hdi Hk Hfd i Hi).
  assert (W : forall k, weight_at (T i) k = select_col (t_w (sl_tr P T i)) k).
  { intros k. rewrite sl_tr_w. destruct k; reflexivity. }
  rewrite !W. unfold sl_rf, sl_tf, sl_rw, sl_tw. split; field; lra.
Qed.
Print Assumptions C130_split.

(** Without absorption nothing of a trajectory that leaves is lost. *)
Theorem C130_complete : forall fuel angs steps P d n T o i,
  valid_params P n -> p_gonio P = None -> p_kz0rot P = None -> full_detection P ->
  calc_refl_trans fuel angs steps P false d (map T (seq 0 n)) = Ok (Some o) -> (i < n)%nat ->
  wf_len (T i) -> flat 1 (T i) ->
  (0 < nth i (o_refl_i o) 0%nat \/ 0 < nth i (o_trans_i o) 0%nat)%nat ->
  inc_of o i + rpass_of o i + tpass_of o i + rback_of o i + tback_of o i = 1 / INR n.
Proof.
  intros fuel angs steps P d n T o i Hv Hgo Hk Hfd H Hi Hw Hfl Hleft. pose proof (valid_good P n Hv) as Hg.
  destruct (outcome_slots _ _ _ _ _ _ _ _ _ Hg H) as (inc & di & Hinc & Hdi & Har & Hat & E1 & E2 & E3 & E4 & E5 & E6 & E7).
  unfold inc_of, rpass_of, tpass_of, rback_of, tback_of.
  rewrite E6, E7, !nth_map_seq_n in Hleft by exact Hi.
  rewrite E1, E2, E3, E4, E5, !nth_map_seq_R by exact Hi.
  assert (HI : 0 < INR n) by (apply lt_0_INR; lia).
  destruct Hdi as [_ Hdi]. rewrite (Hdi Hk Hfd i Hi).
  pose proof (slot_exact P n T inc 1 i Hi Hgo Hw Hfl) as Hs.
  assert (Hst : sl_sw P T inc i = 0).
  { unfold sl_sw. destruct (sl_cases P T i Hw) as [(A & B & _)|[(_ & A & _)|(_ & A & _)]].
    - lia.
    - rewrite A. cbn. ring.
    - rewrite A. cbn. ring. }
  unfold sl_rf, sl_tf. replace (inc i * 1) with (inc i) in Hs by ring.
  replace (sl_rw P T inc i) with (inc i - sl_tw P T inc i) by lra. field. lra.
Qed.
Print Assumptions C130_complete.

(** C131.  fine_roughness = f with n_particle and n_matrix given: the surface
    acts as one of a sample of index f*max(n_particle, n_matrix) + (1-f)*n_sample. *)
Definition rough_index (f np nm ns : R) : R := f * Rmax np nm + (1 - f) * Rabs ns.

(** The same call without roughness for a sample of index [ns]. *)
Definition smooth_params (P : params) (ns : R) : params :=
  mk_params (p_thickness P) (p_nmedium P) ns (p_boundary P) (p_zlow P) (p_detection P)
    (p_nfront P) (p_nback P) (p_run P) (p_maxdepth P) (p_maxstuck P) (p_muabs P) (p_gonio P)
    (p_kz0rot P) (p_kz0refl P) 0 None None.

Lemma rough_tir P np nm : 0 < np -> 0 < nm -> 0 <= p_fine P <= 1 -> p_nsample P <> 0 ->
  p_nparticle P = Some np -> p_nmatrix P = Some nm ->
  choose_n_tir P = rough_index (p_fine P) np nm (p_nsample P)
  /\ choose_n_tir (smooth_params P (rough_index (p_fine P) np nm (p_nsample P))) = choose_n_tir P
  /\ 0 < rough_index (p_fine P) np nm (p_nsample P).
Proof.
  intros H1 H2 Hf Hs Ep Em.
  assert (E : choose_n_tir P = rough_index (p_fine P) np nm (p_nsample P)).
  { unfold choose_n_tir, rough_index. rewrite Ep, Em. destruct (Rltb np nm) eqn:E.
    - apply Rltb_true in E. rewrite Rmax_right by lra. reflexivity.
    - apply Rltb_false in E. rewrite Rmax_left by lra. reflexivity. }
  assert (Hp : 0 < rough_index (p_fine P) np nm (p_nsample P)).
  { unfold rough_index. pose proof (Rmax_l np nm). assert (0 < Rabs (p_nsample P)) by (now apply Rabs_pos_lt).
    destruct (Req_dec (p_fine P) 0) as [->|Hne]; [lra|].
    assert (0 < p_fine P * Rmax np nm) by (apply Rmult_lt_0_compat; lra).
    assert (0 <= (1 - p_fine P) * Rabs (p_nsample P)) by (apply Rmult_le_pos; lra). lra. }
  split; [exact E|]. split; [|exact Hp].
  rewrite E. unfold choose_n_tir, smooth_params. cbn [p_nparticle p_nmatrix p_nsample]. apply Rabs_pos_eq. lra.
Qed.

Lemma first_pass_smooth P ns ft trs : choose_n_tir (smooth_params P ns) = choose_n_tir P -> p_gonio P = None ->
  match first_pass P ft trs, first_pass (smooth_params P ns) ft trs with
  | Ok (Some q), Ok (Some q') =>
      q_trs q = q_trs q' /\ q_refl_i q = q_refl_i q' /\ q_trans_i q = q_trans_i q' /\ q_tir_i q = q_tir_i q'
      /\ q_stuck q = q_stuck q' /\ q_absorb q = q_absorb q' /\ q_exit q = q_exit q'
      /\ q_inc_refl_det q = q_inc_refl_det q' /\ q_total_stuck q = q_total_stuck q'
  | a, b => a = b
  end.
Proof.
  intros Et Hg. unfold first_pass. rewrite Et.
  cbn [smooth_params p_kz0rot p_kz0refl p_gonio p_nmedium p_thickness p_zlow p_boundary p_nfront p_nback].
  rewrite Hg.
  destruct (p_kz0rot P) as [kr|], (p_kz0refl P) as [kf|]; try reflexivity; cbv zeta;
  (destruct (fresnel_correct_enter _ _ _ _ _ _ _ _) as [[inc|]|e]; cbn [bind]; try reflexivity;
   unfold calc_outcome_weights;
   match goal with |- context [fresnel_correct_exit ?a ?b ?c ?d ?e ?f ?g ?h ?i ?j ?k ?l ?m] =>
     destruct (fresnel_correct_exit a b c d e f g h i j k l m) as [x|e0]; cbn [bind]; try reflexivity end;
   unfold detect_corrected_traj;
   cbn [q_trs q_refl_i q_trans_i q_tir_i q_stuck q_absorb q_exit q_inc_refl_det q_total_stuck smooth_params
        p_detection p_kz0rot p_kz0refl];
   repeat split; reflexivity).
Qed.

(** Whatever the detection angle: the exits, the light entering and the split
    at the surface are those of the smooth sample. *)
Theorem C131_surface : forall fuel angs steps P ft d trs np nm o o',
  0 < np -> 0 < nm -> 0 <= p_fine P <= 1 -> p_nsample P <> 0 ->
  p_nparticle P = Some np -> p_nmatrix P = Some nm -> p_gonio P = None ->
  let P' := smooth_params P (rough_index (p_fine P) np nm (p_nsample P)) in
  calc_refl_trans fuel angs steps P ft d trs = Ok (Some o) ->
  calc_refl_trans fuel angs steps P' ft d trs = Ok (Some o') ->
  o_refl_i o = o_refl_i o' /\ o_trans_i o = o_trans_i o' /\ o_inc_refl o = o_inc_refl o'
  /\ o_refl_pass o = o_refl_pass o' /\ o_trans_pass o = o_trans_pass o'
  /\ o_refl_fresnel o = o_refl_fresnel o' /\ o_trans_fresnel o = o_trans_fresnel o'
  /\ o_refl_frac o = o_refl_frac o' /\ o_trans_frac o = o_trans_frac o'.
Proof.
  intros fuel angs steps P ft d trs np nm o o' H1 H2 Hf Hs Ep Em Hg P' H H'.
  destruct (rough_tir P np nm H1 H2 Hf Hs Ep Em) as (_ & Et & _). fold P' in Et.
  apply crt_inv in H as (q & Hq & r & t & rp & tp & g & ->).
  apply crt_inv in H' as (q' & Hq' & r' & t' & rp' & tp' & g' & ->).
  pose proof (first_pass_smooth P _ ft trs Et Hg) as E. fold P' in E. rewrite Hq, Hq' in E.
  destruct E as (E1 & E2 & E3 & E4 & E5 & E6 & E7 & E8 & E9).
  unfold make_outcome. cbn [o_inc_refl o_refl_pass o_trans_pass o_refl_fresnel o_trans_fresnel o_refl_i o_trans_i o_refl_frac o_trans_frac].
  rewrite E1, E2, E3, E7, E8. repeat split; reflexivity.
Qed.
Print Assumptions C131_surface.

Lemma with_mu0 P : exists P0, p_muabs P0 = 0 /\ p_gonio P0 = p_gonio P /\ p_kz0rot P0 = p_kz0rot P
  /\ p_detection P0 = p_detection P /\ p_nsample P0 = p_nsample P /\ choose_n_tir P0 = choose_n_tir P
  /\ p_boundary P0 = p_boundary P
  /\ (forall n, good_params P n -> good_params P0 n)
  /\ forall T inc i, (sl_dr P0 T inc i = sl_dr P T inc i /\ sl_rp P0 T inc i = sl_rp P T inc i)
       /\ (sl_dt P0 T inc i = sl_dt P T inc i /\ sl_tp P0 T inc i = sl_tp P T inc i).
Proof.
  exists (mk_params (p_thickness P) (p_nmedium P) (p_nsample P) (p_boundary P) (p_zlow P) (p_detection P)
    (p_nfront P) (p_nback P) (p_run P) (p_maxdepth P) (p_maxstuck P) 0 (p_gonio P)
    (p_kz0rot P) (p_kz0refl P) (p_fine P) (p_nparticle P) (p_nmatrix P)).
  split; [reflexivity|]. split; [reflexivity|]. split; [reflexivity|]. split; [reflexivity|].
  split; [reflexivity|]. split; [reflexivity|]. split; [reflexivity|].
  split; [intros n H; exact H|].
  intros T inc i. repeat split; reflexivity.
Qed.

Lemma detect_all' P n T inc i : good_params P n -> p_gonio P = None -> p_kz0rot P = None ->
  p_detection P = PI / 2 -> Rabs (p_nsample P) <= choose_n_tir P -> wf_len (T i) ->
  (p_boundary P = film -> dirs_ok (T i)) ->
  sl_dr P T inc i = sl_rp P T inc i /\ sl_dt P T inc i = sl_tp P T inc i.
Proof.
  intros Hg H1 H2 H3 H4 Hw Hd.
  destruct (with_mu0 P) as (P0 & E1 & E2 & E3 & E4 & E5 & E6 & E7 & E8 & E9).
  destruct (E9 T inc i) as [[A1 A2] [A3 A4]]. rewrite <- A1, <- A2, <- A3, <- A4.
  apply (detect_all P0 n); auto.
  - repeat split; rewrite ?E2, ?E3, ?E4, ?E5, ?E6; assumption.
  - rewrite E7. exact Hd.
Qed.

(** Detecting the whole hemisphere, with a surface index not below the
    sample's: everything returned is that of the smooth sample. *)
Theorem C131_same_result : forall fuel angs steps P d n T np nm o,
  valid_params P n -> p_nparticle P = Some np -> p_nmatrix P = Some nm ->
  p_gonio P = None -> p_kz0rot P = None -> full_detection P -> p_run P = false ->
  Rabs (p_nsample P) <= rough_index (p_fine P) np nm (p_nsample P) ->
  (forall i, (i < n)%nat -> wf_len (T i) /\ (p_boundary P = film -> dirs_ok (T i))) ->
  let P' := smooth_params P (rough_index (p_fine P) np nm (p_nsample P)) in
  calc_refl_trans fuel angs steps P false d (map T (seq 0 n)) = Ok (Some o) ->
  calc_refl_trans fuel angs steps P' false d (map T (seq 0 n)) = Ok (Some o).
Proof.
  intros fuel angs steps P d n T np nm o Hv Ep Em Hgo Hk Hfd Hrun Hle HT P' H.
  pose proof (valid_good P n Hv) as Hg.
  destruct Hv as (Hm & Hs & Hfi & Hpa & Hma & Hv).
  destruct (rough_tir P np nm (Hpa np Ep) (Hma nm Em) Hfi Hs Ep Em) as (Eti & Et & Hpos). fold P' in Et.
  assert (Hg' : good_params P' n).
  { destruct Hg as (G1 & G2 & G3 & G4 & G5 & G6 & G7). repeat split; auto.
    - cbn. lra.
    - rewrite Et. exact G3. }
  destruct fuel as [|fuel]; [discriminate|]. cbn [calc_refl_trans] in *.
  pose proof (first_pass_smooth P _ false (map T (seq 0 n)) Et Hgo) as E. fold P' in E.
  destruct (first_pass P false (map T (seq 0 n))) as [[q|]|e] eqn:Eq; [|discriminate|discriminate].
  destruct (first_pass P' false (map T (seq 0 n))) as [[q'|]|e] eqn:Eq'; [|discriminate|discriminate].
  destruct E as (E1 & E2 & E3 & E4 & E5 & E6 & E7 & E8 & E9).
  cbn [bind] in *. change (p_run P') with (p_run P). rewrite Hrun in *. cbn [andb] in *.
  change (p_boundary P') with (p_boundary P). change (p_gonio P') with (p_gonio P).
  assert (D : q_refl_det q = x_refl_pass (q_exit q) /\ q_trans_det q = x_trans_pass (q_exit q)).
  { destruct (first_pass_slots P false n T q Hg Eq) as (inc & di & _ & _ & -> & _ & _).
    unfold sl_pass, sl_exit. cbn. split; apply map_ext_in; intros i Hi; apply in_seq in Hi;
    (destruct (detect_all' P n T inc i Hg Hgo Hk Hfd) as [A B]; [rewrite Eti; exact Hle|apply HT; lia|apply HT; lia|]); assumption. }
  assert (D' : q_refl_det q' = x_refl_pass (q_exit q') /\ q_trans_det q' = x_trans_pass (q_exit q')).
  { destruct (first_pass_slots P' false n T q' Hg' Eq') as (inc & di & _ & _ & -> & _ & _).
    unfold sl_pass, sl_exit. cbn [q_refl_det q_trans_det q_exit x_refl_pass x_trans_pass].
    split; apply map_ext_in; intros i Hi; apply in_seq in Hi;
    (destruct (detect_all' P' n T inc i Hg' Hgo Hk Hfd) as [A B];
      [rewrite Et, Eti; cbn; rewrite Rabs_pos_eq; lra|apply HT; lia|apply HT; lia|]); assumption. }
  assert (F : q_refl_det_frac q = q_refl_det_frac q' /\ q_trans_det_frac q = q_trans_det_frac q').
  { destruct (first_pass_slots P false n T q Hg Eq) as (inc & di & _ & _ & Q & _ & _).
    destruct (first_pass_slots P' false n T q' Hg' Eq') as (inc' & di' & _ & _ & Q' & _ & _).
    assert (F1 : q_refl_det_frac q = det_frac (q_refl_det q) (x_refl_pass (q_exit q))
              /\ q_trans_det_frac q = det_frac (q_trans_det q) (x_trans_pass (q_exit q))) by (rewrite Q; split; reflexivity).
    assert (F2 : q_refl_det_frac q' = det_frac (q_refl_det q') (x_refl_pass (q_exit q'))
              /\ q_trans_det_frac q' = det_frac (q_trans_det q') (x_trans_pass (q_exit q'))) by (rewrite Q'; split; reflexivity).
    destruct F1 as [-> ->], F2 as [-> ->], D as [-> ->], D' as [-> ->]. rewrite E7. split; reflexivity. }
  destruct D as [D1 D2], D' as [D1' D2'], F as [F1 F2].
  rewrite D1', D2', <- F1, <- F2, <- E5, <- E7, <- E8, <- D1, <- D2.
  destruct (distribute_ambig_traj_weights _ _ _ _ _ _ _ _ _ _ _ _) as [[[[r t] rp] tp]|]; [|discriminate].
  rewrite <- H. unfold make_outcome. rewrite E1, E2, E3, E7, E8. reflexivity.
Qed.
Print Assumptions C131_same_result.

(** C39.  What the code computes for the z component of the refracted ray when
    the indices differ: Snell's law in vector form would give
    (sin b/sin a) (k - cos a n) + cos b n.  The value depends on the size of the
    sample (th = diameter) as well. *)
Theorem C39_exit_kz_value_refuted : forall ev t th n1 n2 a b nv k,
  sphere_exit_angle th t ev = (a, nv) -> vselect (t_dir t) ev = k ->
  unit k -> unit nv -> dot k nv = cos a -> refraction a n1 n2 = Some b ->
  exit_kz ev t th n1 n2
  = Some (vz k * (cos (b - a) - sin (b - a) * cos a)
          + vz nv * (sin (b - a) - th / 2 * cos a ^ 2 * (1 - cos (b - a)))).
Proof.
  intros ev t th n1 n2 a b nv k Ea Ek Hk Hn Hd Hr. unfold exit_kz. rewrite Ea, Ek, Hr. f_equal.
  rewrite <- Hd. destruct k as [[kx ky] kz], nv as [[x y] z]. unfold unit, dot, rotate_refract, cross in *.
  cbn [vx vy vz fst snd] in *. set (C := cos (b - a)). set (S := sin (b - a)).
  clear Hd Ea Ek Hr. set (h := th / 2). replace (x * th / 2) with (x * h) by (unfold h; field).
  replace (y * th / 2) with (y * h) by (unfold h; field). replace (z * th / 2) with (z * h) by (unfold h; field).
  set (d := kx * x + ky * y + kz * z).
  transitivity (z * h * ((kx * kx + ky * ky + kz * kz) * (x * x + y * y + z * z) - d ^ 2) * (1 - C) + (z * h + kz) * C
                + (z * (kx * kx + ky * ky + kz * kz) - kz * d) * S - z * h); [unfold d; ring|].
  rewrite Hk, Hn. ring.
Qed.
Print Assumptions C39_exit_kz_value_refuted.
Example C39_exit_kz_value_case : exists a b nv,
  sphere_exit_angle 2 (low_ray (3 / 5)) 1 = (a, nv) /\ unit (1, 0, 0) /\ unit nv
  /\ dot (1, 0, 0) nv = cos a /\ refraction a (5 / 4) 1 = Some b /\ a <> b.
Proof.
  assert (E : sqrt (1 - (3 / 5) ^ 2) = 4 / 5).
  { replace (1 - (3 / 5) ^ 2) with ((4 / 5) * (4 / 5)) by field. apply sqrt_square. lra. }
  pose proof (low_ray_angle (3 / 5) ltac:(lra)) as H. rewrite E in H.
  assert (Hs : sin (acos (4 / 5)) = 3 / 5).
  { rewrite sin_acos by lra. replace (1 - Rsqr (4 / 5)) with ((3 / 5) * (3 / 5)) by (unfold Rsqr; field). apply sqrt_square. lra. }
  exists (acos (4 / 5)), (asin (5 / 4 / 1 * (3 / 5))), (4 / 5, 0, - (3 / 5)).
  split; [exact H|]. split; [unfold unit, dot; cbn; ring|]. split; [unfold unit, dot; cbn; field|].
  split; [unfold dot; cbn; rewrite cos_acos by lra; ring|]. split.
  - unfold refraction. rewrite Hs.
    rewrite (proj2 (Rltb_false 1 _)); [reflexivity|]. rewrite Rabs_pos_eq; lra.
  - intros Eq. apply (f_equal sin) in Eq. rewrite Hs, sin_asin in Eq by lra. lra.
Qed.

(* ------------------------------------------------------------------ *)
(** Cases meeting the hypotheses: the film of index 3/2 of Properties_detector,
    whose trajectory leaves backwards at event 2; and a film of index 5/4 with
    particles of index 7/4 in a matrix of index 5/4, half of the surface rough,
    which behaves as the film of index 3/2. *)
Example C130_case : exists o,
  calc_refl_trans 1 (fun _ _ _ => (0, 0)) (fun _ _ _ => 0) ex_film false 0 (map (fun _ => ex_traj) (seq 0 1))
    = Ok (Some o)
  /\ nth 0 (o_refl_i o) 0%nat = 2%nat
  /\ inc_of o 0 + rpass_of o 0 + tpass_of o 0 + rback_of o 0 + tback_of o 0 = 1.
Proof.
  destruct ex_film_number as (o & Ho & _). exists o. split; [exact Ho|].
  destruct ex_traj_ok as (W & D & F & _).
  assert (E : nth 0 (o_refl_i o) 0%nat = 2%nat).
  { destruct (outcome_slots _ _ _ _ _ _ _ _ _ (valid_good _ _ ex_film_valid) Ho)
      as (inc & di & _ & _ & _ & _ & _ & _ & _ & _ & _ & E6 & _).
    rewrite E6. destruct ex_event as [ti He]. cbn [seq map nth].
    unfold sl_ri, sl_ev, sl_nt, choose_n_tir, ex_film. cbn [p_gonio p_nparticle p_nmatrix p_nsample p_nmedium p_thickness p_zlow p_boundary].
    rewrite (Rabs_pos_eq (3 / 2)) by lra. rewrite He. reflexivity. }
  split; [exact E|].
  rewrite (C130_complete _ _ _ _ _ _ _ _ 0 ex_film_valid eq_refl eq_refl (proj2 ex_film_plain) Ho (le_n 1) W F).
  - cbn. lra.
  - left. rewrite E. lia.
Qed.

Definition rough_film : params :=
  mk_params 1 1 (5 / 4) film 0 (PI / 2) None None false 20 (1 / 100) 0 None None None (1 / 2) (Some (7 / 4)) (Some (5 / 4)).
Example C131_case : exists o,
  calc_refl_trans 1 (fun _ _ _ => (0, 0)) (fun _ _ _ => 0) rough_film false 0 (map (fun _ => ex_traj) (seq 0 1))
    = Ok (Some o)
  /\ calc_refl_trans 1 (fun _ _ _ => (0, 0)) (fun _ _ _ => 0) ex_film false 0 (map (fun _ => ex_traj) (seq 0 1))
    = Ok (Some o).
Proof.
  assert (Hr : rough_index (1 / 2) (7 / 4) (5 / 4) (5 / 4) = 3 / 2).
  { unfold rough_index. rewrite Rmax_left by lra. rewrite Rabs_pos_eq by lra. lra. }
  assert (V : valid_params rough_film 1).
  { unfold valid_params, rough_film; cbn. repeat split; try lra; try discriminate;
    intros m Em; assert (Em' := f_equal (fun x => match x with Some y => y | None => 0 end) Em); cbn in Em'; lra. }
  destruct (rough_tir rough_film (7 / 4) (5 / 4) ltac:(lra) ltac:(lra) ltac:(cbn; lra) ltac:(cbn; lra) eq_refl eq_refl) as (E1 & _ & _).
  cbn [p_fine p_nsample rough_film] in E1. rewrite Hr in E1.
  destruct ex_traj_ok as (W & D & F & C).
  assert (exists o, calc_refl_trans 1 (fun _ _ _ => (0, 0)) (fun _ _ _ => 0) rough_film false 0 (map (fun _ => ex_traj) (seq 0 1)) = Ok (Some o)) as [o Ho].
  { eapply (film_number 0) with (j := 0%nat); try reflexivity; try discriminate; auto.
    - now apply valid_good.
    - intros i _. split; [exact W|]. split; [exact D|]. split; [exact (proj2 C)|]. rewrite E1. apply ex_steep.
    - rewrite E1. destruct ex_event as [ti He]. exists 2%nat, 0%nat, 0%nat, ti.
      split; [exact He|]. split; [lia|]. cbn. lra. }
  exists o. split; [exact Ho|].
  pose proof (C131_same_result 1 (fun _ _ _ => (0, 0)) (fun _ _ _ => 0) rough_film 0 1 (fun _ => ex_traj) (7 / 4) (5 / 4) o V eq_refl eq_refl eq_refl eq_refl eq_refl eq_refl) as Q.
  cbn [p_fine p_nsample rough_film] in Q. rewrite Hr in Q. apply Q.
  - rewrite Rabs_pos_eq; lra.
  - intros i _. split; [exact W|intros _; exact D].
  - exact Ho.
Qed.
