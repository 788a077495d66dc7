(** Pooling the trajectories of several runs, C151. *)
From Coq Require Import Lra Lia Psatz.
From Verif Require Import Num Spec Spec_optics Spec_detector Spec_meta L_num L_weights L_slots L_conserve L_montecarlo L_montecarlo2 L_exits L_outcomes L_fresnel
  L_meta L_meta3 L_meta4 Properties_returned L_pool M_init M_montecarlo M_detector Properties_detector Properties_meta.
Open Scope R_scope.

(** What a successful call says about its trajectories. *)
Lemma call_seen fuel angs steps P ft d trs o :
  valid_params P (length trs) -> p_run P = false -> p_gonio P = None -> p_kz0rot P = None -> p_kz0refl P = None ->
  full_detection P -> Rabs (p_nsample P) <= choose_n_tir P ->
  (forall t, In t trs -> col_ok 1 t /\ (p_boundary P = film -> dirs_ok t)) ->
  calc_refl_trans (S fuel) angs steps P ft d trs = Ok (Some o) ->
  seen P ft (map (film_view P) trs).
Proof.
  intros Hv Hr Hg H1 H2 Hfull Hle HT Ho.
  destruct (answered _ _ _ _ _ _ _ _ Hr Hg H1 H2 Ho) as (B1 & B2 & B3 & _).
  split; [exact B2|]. intros a Ha. apply in_map_iff in Ha. destruct Ha as (t & <- & Hin). destruct (HT t Hin) as [Hc Hd].
  split; [apply film_view_ok; assumption|]. destruct Hc as [Hw _]. set (a := film_view P t).
  destruct (detect_all' P (length trs) (fun _ => t) (fun _ => v_inc P ft a) 0 (valid_good _ _ Hv) Hg H1 Hfull Hle Hw Hd) as [D1 D2].
  assert (Etr : sl_tr P (fun _ => t) 0 = t) by (unfold sl_tr; rewrite Hg; reflexivity).
  unfold sl_dr, sl_dt, sl_rp, sl_tp, sl_ar, sl_at, sl_rw, sl_tw, sl_ri, sl_ti in D1, D2. rewrite Hg, Etr in *.
  split; [exact D1|exact D2].
Qed.

Lemma answer_ok P ft fuel angs steps d trs :
  p_run P = false -> p_gonio P = None -> p_kz0rot P = None -> p_kz0refl P = None ->
  let v := map (film_view P) trs in
  bad_in P ft v = false -> bad_angle P ft v = false -> bad_known P ft v = false ->
  exists o, calc_refl_trans (S fuel) angs steps P ft d trs = Ok (Some o) /\ o_refl o = c_R P ft v /\ o_trans o = c_T P ft v
    /\ INR (length trs) * total (o_refl_fresnel o) = back_r P ft v /\ INR (length trs) * total (o_trans_fresnel o) = back_t P ft v.
Proof.
  intros Hr Hg H1 H2 v B1 B2 B3. rewrite crt_view by assumption. fold v.
  pose proof (answer_closed P ft H1 H2 v) as E. rewrite B1, B2, B3 in E.
  destruct (view_result P ft v) as [[o|]|e] eqn:Ev; cbn [answer] in E; try discriminate.
  exists o. split; [reflexivity|]. 
  assert (G : forall a b c d : R, @Ok (option (R * R)) (Some (a, b)) = Ok (Some (c, d)) -> a = c /\ b = d) by (intros; split; congruence).
  apply G in E. destruct E as [E1 E2]. split; [exact E1|]. split; [exact E2|].
  destruct (fresnel_closed P ft v o H1 H2 Ev) as [F1 F2]. rewrite F1, F2.
  unfold Rdiv. rewrite !total_map_times. unfold back_r, back_t. assert (Lv : length v = length trs) by (unfold v; apply map_length). rewrite Lv.
  destruct trs as [|t trs]; [subst v; cbn; split; ring|].
  assert (0 < INR (length (t :: trs))) by (apply lt_0_INR; cbn; lia). split; field; lra.
Qed.

(** C151.  Two sets of trajectories analysed together: the call answers if both
    parts do.  For a sphere the pooled reflectance and transmittance are exactly
    the averages of the parts, weighted with the numbers of trajectories.  For a
    film they differ from them by no more than the light reflected back into the
    film at the exits (returned by calc_refl_trans as refl_fresnel and
    trans_fresnel). *)
Theorem C151_pool : forall fuel angs steps P ft d d1 d2 trs1 trs2 o1 o2,
  valid_params P (length trs1) -> p_run P = false -> p_gonio P = None -> p_kz0rot P = None -> p_kz0refl P = None ->
  full_detection P -> Rabs (p_nsample P) <= choose_n_tir P -> trs1 <> [] -> trs2 <> [] ->
  (forall t, In t (trs1 ++ trs2) -> col_ok 1 t /\ (p_boundary P = film -> dirs_ok t)) ->
  calc_refl_trans (S fuel) angs steps P ft d1 trs1 = Ok (Some o1) ->
  calc_refl_trans (S fuel) angs steps P ft d2 trs2 = Ok (Some o2) ->
  let n1 := INR (length trs1) in let n2 := INR (length trs2) in
  exists o, calc_refl_trans (S fuel) angs steps P ft d (trs1 ++ trs2) = Ok (Some o)
    /\ Rabs (o_refl o - (n1 * o_refl o1 + n2 * o_refl o2) / (n1 + n2)) <= total (o_refl_fresnel o) + total (o_trans_fresnel o)
    /\ Rabs (o_trans o - (n1 * o_trans o1 + n2 * o_trans o2) / (n1 + n2)) <= total (o_refl_fresnel o) + total (o_trans_fresnel o)
    /\ (p_boundary P = sphere ->
          o_refl o = (n1 * o_refl o1 + n2 * o_refl o2) / (n1 + n2) /\ o_trans o = (n1 * o_trans o1 + n2 * o_trans o2) / (n1 + n2)).
Proof.
  intros fuel angs steps P ft d d1 d2 trs1 trs2 o1 o2 Hv Hr Hg H1 H2 Hfull Hle E1 E2 HT Ho1 Ho2 n1 n2.
  assert (Hv2 : valid_params P (length trs2)).
  { unfold valid_params in Hv |- *. destruct Hv as (A & B & C & D & F & G & H & I & J).
    repeat (split; try assumption); intros kr Hkr; congruence. }
  pose proof (call_seen _ _ _ _ _ _ _ _ Hv Hr Hg H1 H2 Hfull Hle (fun t Ht => HT t (in_or_app _ _ _ (or_introl Ht))) Ho1) as S1.
  pose proof (call_seen _ _ _ _ _ _ _ _ Hv2 Hr Hg H1 H2 Hfull Hle (fun t Ht => HT t (in_or_app _ _ _ (or_intror Ht))) Ho2) as S2.
  destruct (answered _ _ _ _ _ _ _ _ Hr Hg H1 H2 Ho1) as (A1 & A2 & A3 & R1 & T1).
  destruct (answered _ _ _ _ _ _ _ _ Hr Hg H1 H2 Ho2) as (B1 & B2 & B3 & R2 & T2).
  pose proof (valid_good _ _ Hv) as G. destruct G as (Gm & Gs & Gt & Gf & Gb & _).
  set (v1 := map (film_view P) trs1) in *. set (v2 := map (film_view P) trs2) in *.
  pose proof (seen_app P ft v1 v2 S1 S2) as S12.
  pose proof (bad_in_app P ft v1 v2 A1 B1) as C1. pose proof (bad_known_app P ft Gm Gt Gf Gb v1 v2 S1 S2 A3 B3) as C3.
  assert (Ev : map (film_view P) (trs1 ++ trs2) = v1 ++ v2) by apply map_app.
  destruct (answer_ok P ft fuel angs steps d (trs1 ++ trs2) Hr Hg H1 H2) as (o & Eo & Rr & Tt & F1 & F2);
    [rewrite Ev; exact C1|rewrite Ev; exact (proj1 S12)|rewrite Ev; exact C3|].
  rewrite Ev in *. exists o. split; [exact Eo|].
  assert (L1 : (0 < length v1)%nat) by (unfold v1; rewrite map_length; destruct trs1; [congruence|cbn; lia]).
  assert (L2 : (0 < length v2)%nat) by (unfold v2; rewrite map_length; destruct trs2; [congruence|cbn; lia]).
  destruct (R_split P ft v1 L1 S1) as [P1 Q1]. destruct (R_split P ft v2 L2 S2) as [P2 Q2].
  destruct (R_split P ft (v1 ++ v2) ltac:(rewrite app_length; lia) S12) as [P3 Q3].
  destruct (shared_range P ft Gm Gt Gf Gb v1 S1 A3) as [U1 W1]. destruct (shared_range P ft Gm Gt Gf Gb v2 S2 B3) as [U2 W2].
  destruct (shared_range P ft Gm Gt Gf Gb (v1 ++ v2) S12 C3) as [U3 W3].
  destruct (back_app P ft v1 v2) as [X1 X2]. rewrite X1, X2 in *.
  rewrite !total_map_app in *. rewrite <- R1 in P1. rewrite <- R2 in P2. rewrite <- Rr in P3.
  rewrite <- T1 in Q1. rewrite <- T2 in Q2. rewrite <- Tt in Q3.
  assert (N1 : INR (length v1) = n1) by (unfold v1, n1; now rewrite map_length).
  assert (N2 : INR (length v2) = n2) by (unfold v2, n2; now rewrite map_length).
  assert (N3 : INR (length (v1 ++ v2)) = n1 + n2) by (rewrite app_length, plus_INR; lra).
  assert (N4 : INR (length (trs1 ++ trs2)) = n1 + n2) by (rewrite app_length, plus_INR; reflexivity).
  rewrite N1 in *. rewrite N2 in *. rewrite N3 in *. rewrite N4 in *.
  assert (K1 : 0 < n1) by (rewrite <- N1; now apply lt_0_INR). assert (K2 : 0 < n2) by (rewrite <- N2; now apply lt_0_INR).
  assert (B : forall r s F, (n1 + n2) * r - s <= (n1 + n2) * F -> s - (n1 + n2) * r <= (n1 + n2) * F -> Rabs (r - s / (n1 + n2)) <= F).
  { intros r s F Y1 Y2. apply Rabs_le.
    assert (Es : s = (n1 + n2) * (s / (n1 + n2))) by (field; lra). set (q := s / (n1 + n2)) in *.
    split; [apply Rmult_le_reg_l with (n1 + n2); nra|apply Rmult_le_reg_l with (n1 + n2); nra]. }
  split; [apply B; nra|]. split; [apply B; nra|].
  intros Hs. unfold shared_r, shared_t in P1, P2, P3, Q1, Q2, Q3. rewrite Hs in *. rewrite X1, X2 in *.
  split; apply Rmult_eq_reg_l with (n1 + n2); try lra; field_simplify; lra.
Qed.
Print Assumptions C151_pool.

(** C151.  Analysing every trajectory k times instead of once changes nothing. *)
Theorem C151_copies : forall fuel angs steps P ft d d' trs k o,
  valid_params P (length trs) -> p_run P = false -> p_gonio P = None -> p_kz0rot P = None -> p_kz0refl P = None ->
  full_detection P -> Rabs (p_nsample P) <= choose_n_tir P -> trs <> [] -> (0 < k)%nat ->
  (forall t, In t trs -> col_ok 1 t /\ (p_boundary P = film -> dirs_ok t)) ->
  calc_refl_trans (S fuel) angs steps P ft d trs = Ok (Some o) ->
  exists o', calc_refl_trans (S fuel) angs steps P ft d' (concat (repeat trs k)) = Ok (Some o')
    /\ o_refl o' = o_refl o /\ o_trans o' = o_trans o.
Proof.
  intros fuel angs steps P ft d d' trs k o Hv Hr Hg H1 H2 Hfull Hle Hne Hk HT Ho.
  pose proof (call_seen _ _ _ _ _ _ _ _ Hv Hr Hg H1 H2 Hfull Hle HT Ho) as S1.
  destruct (answered _ _ _ _ _ _ _ _ Hr Hg H1 H2 Ho) as (A1 & A2 & A3 & R1 & T1).
  pose proof (valid_good _ _ Hv) as G. destruct G as (Gm & Gs & Gt & Gf & Gb & _).
  set (v := map (film_view P) trs) in *.
  assert (Ev : map (film_view P) (concat (repeat trs k)) = concat (repeat v k)).
  { rewrite concat_map. f_equal. clear. induction k as [|k IH]; [reflexivity|]. cbn [repeat map]. now rewrite IH. }
  assert (L1 : (0 < length v)%nat) by (unfold v; rewrite map_length; destruct trs; [congruence|cbn; lia]).
  assert (Q : seen P ft (concat (repeat v k)) /\ bad_in P ft (concat (repeat v k)) = false /\ bad_known P ft (concat (repeat v k)) = false
     /\ length (concat (repeat v k)) = (k * length v)%nat /\ (forall f, total (map f (concat (repeat v k))) = INR k * total (map f v))).
  { clear Ev. induction k as [|k IH]; [lia|]. destruct k as [|k].
    - cbn [repeat concat]. rewrite app_nil_r. repeat split; try apply S1; try assumption; [lia|]. intros f. cbn. lra.
    - destruct IH as (I1 & I2 & I3 & I4 & I5); [lia|]. cbn [repeat concat] in *. 
      set (w := v ++ concat (repeat v k)) in *. split; [now apply seen_app|]. split; [now apply bad_in_app|]. split; [now apply bad_known_app|].
      split; [rewrite app_length, I4; lia|]. intros f. rewrite total_map_app, I5, (S_INR (S k)). lra. }
  destruct Q as (Q1 & Q2 & Q3 & Q4 & Q5). set (vk := concat (repeat v k)) in *.
  assert (KK : 0 < INR k) by (apply lt_0_INR; exact Hk). assert (Lr : 0 < INR (length v)) by (apply lt_0_INR; exact L1).
  destruct (answer_ok P ft fuel angs steps d' (concat (repeat trs k)) Hr Hg H1 H2) as (o' & Eo & Rr & Tt & _);
    [rewrite Ev; exact Q2|rewrite Ev; exact (proj1 Q1)|rewrite Ev; exact Q3|].
  rewrite Ev in *. exists o'. split; [exact Eo|]. rewrite Rr, Tt, R1, T1.
  assert (L2 : (0 < length vk)%nat) by (rewrite Q4; nia).
  destruct (R_split P ft v L1 S1) as [P1 Y1]. destruct (R_split P ft vk L2 Q1) as [P2 Y2].
  rewrite Q4, mult_INR, Q5 in P2, Y2.
  assert (Kn : c_known P ft vk = INR k * c_known P ft v) by (unfold c_known; destruct ft; [rewrite Q4, mult_INR; reflexivity|apply Q5]).
  assert (Sr : shared_r P ft vk = INR k * shared_r P ft v /\ shared_t P ft vk = INR k * shared_t P ft v).
  { unfold shared_r, shared_t, back_r, back_t, c_rfrac, c_tfrac. rewrite !Q5, Kn. unfold bad_known in A3.
    destruct (p_boundary P); [|split; lra]. apply Reqb_false in A3. split; field; split; lra. }
  destruct Sr as [Sr St]. rewrite Sr in P2. rewrite St in Y2.
  split; apply Rmult_eq_reg_l with (INR k * INR (length v)); nra.
Qed.
Print Assumptions C151_copies.

(** For films the average is not exact: one ray that comes back and one that
    goes through a film of index 3/2 in air. *)
Definition ex_through : traj := mk_traj [(0, 0, 0); (0, 0, 2)] [(0, 0, 1)] [1].

Lemma ex_tir : choose_n_tir ex_film = 3 / 2.
Proof. unfold choose_n_tir. cbn. apply Rabs_pos_eq. lra. Qed.
Lemma film_angle_down : film_angle (-1) = 0.
Proof. unfold film_angle. rewrite Rabs_left by lra. replace (- -1) with 1 by ring. apply acos_1. Qed.
Lemma ex_back_view : film_view ex_film ex_traj = mk_view 2 0 0 1 0 0 0 (PI / 2) 1 0.
Proof.
  destruct ex_event as [ti He]. unfold film_view. rewrite ex_tir.
  change (p_nmedium ex_film) with 1. change (p_thickness ex_film) with 1. change (p_zlow ex_film) with 0.
  change (p_boundary ex_film) with film. rewrite He. unfold L_meta.exit_angle, film_exit_angle.
  cbn [p_boundary ex_film]. cbn [i_refl i_trans i_stuck select_col ex_traj t_dir t_w map nth vz snd].
  rewrite film_angle_unit, film_angle_zero, film_angle_down. reflexivity.
Qed.
Lemma ex_through_ok : wf_len ex_through /\ dirs_ok ex_through /\ col_ok 1 ex_through.
Proof.
  assert (W : wf_len ex_through) by (repeat split; cbn; lia). split; [exact W|].
  split; [|split; [exact W|]]; [unfold dirs_ok|]; cbn [ex_through t_dir t_w]; (apply Forall_cons; [cbn; lra|apply Forall_nil]).
Qed.
Lemma ex_through_view : film_view ex_film ex_through = mk_view 0 1 0 0 1 0 (PI / 2) 0 1 0.
Proof.
  destruct ex_through_ok as (W & D & _).
  destruct (first_exit_physical (3 / 2) 1 1 ex_through 0 W D ltac:(lra) ltac:(lra) ltac:(cbn; lia)) as [_ X].
  { intros j Hj. replace j with 0%nat by lia. cbn. lra. } { apply ex_steep. }
  destruct X as (ti & He); [cbn; lra|].
  unfold film_view. rewrite ex_tir.
  change (p_nmedium ex_film) with 1. change (p_thickness ex_film) with 1. change (p_zlow ex_film) with 0.
  change (p_boundary ex_film) with film. rewrite He. unfold L_meta.exit_angle, film_exit_angle.
  cbn [p_boundary ex_film]. cbn [i_refl i_trans i_stuck select_col ex_through t_dir t_w map nth vz snd].
  rewrite film_angle_unit, film_angle_zero. reflexivity.
Qed.

Theorem C151_film_not_average : exists o1 o2 o,
  calc_refl_trans 1 (fun _ _ _ => (0, 0)) (fun _ _ _ => 0) ex_film false 0 [ex_traj] = Ok (Some o1)
  /\ calc_refl_trans 1 (fun _ _ _ => (0, 0)) (fun _ _ _ => 0) ex_film false 0 [ex_through] = Ok (Some o2)
  /\ calc_refl_trans 1 (fun _ _ _ => (0, 0)) (fun _ _ _ => 0) ex_film false 0 ([ex_traj] ++ [ex_through]) = Ok (Some o)
  /\ o_refl o < (1 * o_refl o1 + 1 * o_refl o2) / (1 + 1).
Proof.
  set (i := pf1 1 None (3 / 2) 0). set (x := pf1 (3 / 2) None 1 0). pose proof PI2_3_2 as HPI.
  assert (S0 : sin 0 = 0) by apply sin_0.
  assert (Hi : 0 < i < 1).
  { split; [apply pf1_pos; try discriminate; rewrite ?S0; lra|apply (pf1_bounds 1 None (3 / 2) 0); try discriminate; lra]. }
  assert (Hx : 0 < x < 1).
  { split; [apply pf1_pos; try discriminate; rewrite ?S0; lra|apply (pf1_bounds (3 / 2) None 1 0); try discriminate; lra]. }
  set (a := mk_view 2 0 0 1 0 0 0 (PI / 2) 1 0). set (b := mk_view 0 1 0 0 1 0 (PI / 2) 0 1 0).
  assert (Vin : forall c, v_first c = 0 -> v_in ex_film c = Some 0).
  { intros c Hc. unfold v_in. rewrite ex_tir, Hc. cbn [ex_film p_boundary p_nmedium]. unfold refraction.
    rewrite sin_0, Rmult_0_r, Rabs_R0. rewrite (proj2 (Rltb_false _ _)) by lra. cbn [option_map].
    rewrite asin_0, cos_0, film_angle_unit. reflexivity. }
  assert (Inc : forall c, v_first c = 0 -> v_inc ex_film false c = i).
  { intros c Hc. unfold v_inc. rewrite Vin by exact Hc. rewrite ex_tir. reflexivity. }
  assert (C1 : c_rp ex_film false a = i * x /\ c_tp ex_film false a = 0 /\ c_rf ex_film false a = i - i * x /\ c_tf ex_film false a = 0
    /\ c_sw ex_film false a = 0 /\ c_ab ex_film false a = 0).
  { unfold c_rf, c_tf, c_ab, c_rp, c_tp, c_sw, c_rw, c_tw. rewrite Inc by reflexivity. rewrite ex_tir. cbn [a v_wr v_wt v_ws v_ar v_at ex_film p_nfront p_nback p_nmedium].
    fold x. repeat split; ring. }
  assert (C2 : c_rp ex_film false b = 0 /\ c_tp ex_film false b = i * x /\ c_rf ex_film false b = 0 /\ c_tf ex_film false b = i - i * x
    /\ c_sw ex_film false b = 0 /\ c_ab ex_film false b = 0).
  { unfold c_rf, c_tf, c_ab, c_rp, c_tp, c_sw, c_rw, c_tw. rewrite Inc by reflexivity. rewrite ex_tir. cbn [b v_wr v_wt v_ws v_ar v_at ex_film p_nfront p_nback p_nmedium].
    fold x. repeat split; ring. }
  assert (Di : forall c, v_first c = 0 -> v_kz0 c = 1 -> c_di ex_film false c = 1 - i).
  { intros c H0 H1. unfold c_di, v_dia. rewrite Inc by exact H0. cbn [ex_film p_boundary p_nmedium p_detection]. rewrite H1, film_angle_unit.
    apply at_zero; lra. }
  destruct C1 as (a1 & a2 & a3 & a4 & a5 & a6). destruct C2 as (b1 & b2 & b3 & b4 & b5 & b6).
  assert (Hw : 0 < i * x) by nra.
  assert (Known : forall v, c_known ex_film false v = total (map (fun c => c_ab ex_film false c + c_rp ex_film false c + c_tp ex_film false c) v)) by reflexivity.
  assert (P0 : past 0 = false) by (apply Rltb_false; lra). assert (P1 : past (PI / 2) = false) by (apply Rltb_false; lra).
  assert (Go : forall trs v, map (film_view ex_film) trs = v -> (forall c, In c v -> c = a \/ c = b) -> v <> [] ->
     exists o, calc_refl_trans 1 (fun _ _ _ => (0, 0)) (fun _ _ _ => 0) ex_film false 0 trs = Ok (Some o) /\ o_refl o = c_R ex_film false v).
  { intros trs v Ev Hab Hne.
    destruct (answer_ok ex_film false 0 (fun _ _ _ => (0, 0)) (fun _ _ _ => 0) 0 trs eq_refl eq_refl eq_refl eq_refl) as (o & Eo & Er & _); rewrite ?Ev in *.
    - unfold bad_in. cbn [negb andb]. clear -Hab Vin. induction v as [|c v IH]; [reflexivity|]. cbn [map existsb].
      rewrite (Vin c) by (destruct (Hab c (or_introl eq_refl)) as [->| ->]; reflexivity). apply IH. intros; apply Hab. now right.
    - unfold bad_angle. cbn [negb andb].
      assert (Q : forall f, (forall c, In c v -> past (f c) = false) -> existsb past (map f v) = false).
      { clear. intros f Hf. induction v as [|c v IH]; [reflexivity|]. cbn [map existsb]. rewrite Hf by now left. apply IH. intros; apply Hf; now right. }
      rewrite !Q; [reflexivity| | |]; intros c Hc; destruct (Hab c Hc) as [->| ->]; rewrite ?Vin by reflexivity; cbn [nan_to_num a b v_ar v_at]; assumption.
    - unfold bad_known. cbn [ex_film p_boundary]. apply Reqb_false. rewrite Known.
      assert (Q : forall u, (forall c, In c u -> c = a \/ c = b) -> u <> [] -> 0 < total (map (fun c => c_ab ex_film false c + c_rp ex_film false c + c_tp ex_film false c) u)).
      { clear -a1 a2 a6 b1 b2 b6 Hw. induction u as [|c u IH]; intros Hab Hne; [congruence|]. cbn [map total].
        assert (0 < c_ab ex_film false c + c_rp ex_film false c + c_tp ex_film false c) by (destruct (Hab c (or_introl eq_refl)) as [->| ->]; lra).
        destruct u as [|c' u]; [cbn; lra|]. assert (Z := IH (fun c Hc => Hab c (or_intror Hc)) ltac:(discriminate)). lra. }
      pose proof (Q v Hab Hne). lra.
    - exists o. split; [exact Eo|exact Er]. }
  assert (Sn : forall v, (forall c, In c v -> c = a \/ c = b) -> forall c, In c v -> c_dr ex_film false c = c_rp ex_film false c).
  { intros v Hab c Hc. unfold c_dr. destruct (Hab c Hc) as [->| ->].
    - cbn [a v_ar]. unfold detect1, refraction. rewrite sin_0, Rmult_0_r, Rabs_R0. rewrite (proj2 (Rltb_false _ _)) by lra. rewrite asin_0.
      cbn [ex_film p_detection]. rewrite (proj2 (Rltb_false _ _)) by lra. reflexivity.
    - rewrite b1. destruct (detect1_cases (Rabs (p_nsample ex_film)) (p_nmedium ex_film) (p_detection ex_film) (v_ar b) 0) as [-> | ->]; reflexivity. }
  assert (Rdf : forall v, (forall c, In c v -> c = a \/ c = b) -> c_rdf ex_film false v = 1).
  { intros v Hab. unfold c_rdf. replace (map (c_dr ex_film false) v) with (map (c_rp ex_film false) v); [apply unit_frac|].
    apply map_ext_in. intros c Hc. symmetry. now apply (Sn v). }
  destruct (Go [ex_traj] [a]) as (o1 & E1 & R1); [cbn [map]; now rewrite ex_back_view|intros c [<-|[]]; now left|discriminate|].
  destruct (Go [ex_through] [b]) as (o2 & E2 & R2); [cbn [map]; now rewrite ex_through_view|intros c [<-|[]]; now right|discriminate|].
  destruct (Go ([ex_traj] ++ [ex_through]) [a; b]) as (o & E & R3); [cbn [map app]; now rewrite ex_back_view, ex_through_view|intros c [<-|[<-|[]]]; [now left|now right]|discriminate|].
  exists o1, o2, o. split; [exact E1|]. split; [exact E2|]. split; [exact E|].
  assert (Ha : forall c, In c [a] -> c = a \/ c = b) by (intros c [<-|[]]; now left).
  assert (Hb : forall c, In c [b] -> c = a \/ c = b) by (intros c [<-|[]]; now right).
  assert (Hc : forall c, In c [a; b] -> c = a \/ c = b) by (intros c [<-|[<-|[]]]; [now left|now right]).
  assert (U1 : o_refl o1 = 1).
  { rewrite R1. unfold c_R. rewrite Rdf by exact Ha. cbn [map total length]. rewrite (Sn [a] Ha a (or_introl eq_refl)), Di by reflexivity.
    unfold c_er. cbn [ex_film p_boundary]. fold ex_film. unfold c_rfrac, c_tfrac. rewrite Known. cbn [map total]. rewrite a1, a2, a3, a4, a5, a6. cbn. field. lra. }
  assert (U2 : o_refl o2 = 1 - i * x).
  { rewrite R2. unfold c_R. rewrite Rdf by exact Hb. cbn [map total length]. rewrite (Sn [b] Hb b (or_introl eq_refl)), Di by reflexivity.
    unfold c_er. cbn [ex_film p_boundary]. fold ex_film. unfold c_rfrac, c_tfrac. rewrite Known. cbn [map total]. rewrite b1, b2, b3, b4, b5, b6. cbn. field. lra. }
  assert (U3 : o_refl o = (1 - i) + i / 2).
  { rewrite R3. unfold c_R. rewrite Rdf by exact Hc. cbn [map total length]. rewrite (Sn [a; b] Hc a (or_introl eq_refl)), (Sn [a; b] Hc b (or_intror (or_introl eq_refl))), !Di by reflexivity.
    unfold c_er. cbn [ex_film p_boundary]. fold ex_film. unfold c_rfrac, c_tfrac. rewrite Known. cbn [map total]. rewrite a1, a2, a3, a4, a5, a6, b1, b2, b3, b4, b5, b6. cbn. field. lra. }
  rewrite U1, U2, U3. nra.
Qed.
Print Assumptions C151_film_not_average.

(** The hypotheses of C151_pool are met by that film. *)
Example C151_case : exists o1 o2 o,
  calc_refl_trans 1 (fun _ _ _ => (0, 0)) (fun _ _ _ => 0) ex_film false 0 [ex_traj] = Ok (Some o1)
  /\ calc_refl_trans 1 (fun _ _ _ => (0, 0)) (fun _ _ _ => 0) ex_film false 0 [ex_through] = Ok (Some o2)
  /\ calc_refl_trans 1 (fun _ _ _ => (0, 0)) (fun _ _ _ => 0) ex_film false 0 ([ex_traj] ++ [ex_through]) = Ok (Some o)
  /\ Rabs (o_refl o - (1 * o_refl o1 + 1 * o_refl o2) / (1 + 1)) <= total (o_refl_fresnel o) + total (o_trans_fresnel o).
Proof.
  destruct C151_film_not_average as (o1 & o2 & o & E1 & E2 & E & _). exists o1, o2, o. split; [exact E1|]. split; [exact E2|]. split; [exact E|].
  destruct (C151_pool 0 (fun _ _ _ => (0, 0)) (fun _ _ _ => 0) ex_film false 0 0 0 [ex_traj] [ex_through] o1 o2) as (o' & E' & H & _);
    [exact ex_film_valid|reflexivity|reflexivity|reflexivity|reflexivity|apply ex_film_plain|rewrite ex_tir; cbn; rewrite Rabs_pos_eq; lra|discriminate|discriminate| |exact E1|exact E2|].
  - intros t [<-|[<-|[]]]; [destruct ex_traj_ok as (_ & D & _ & K); auto|destruct ex_through_ok as (_ & D & K); auto].
  - rewrite E in E'. assert (Eo : o' = o) by congruence. rewrite <- Eo. exact H.
Qed.
