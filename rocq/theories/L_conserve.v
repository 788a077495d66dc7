(** Exact conservation (C31, C34). *)
From Coq Require Import Lra Lia Psatz.
From Verif Require Export L_energy.
Open Scope R_scope.

(** Every recorded film exit can refract out. *)
Lemma film_exit_refracts nt ns nm th zl t ps ng ti k :
  0 < ns <= nt -> 0 < nm -> wf_len t -> dirs_ok t ->
  find_valid_exits nt nm th zl film t = (ps, ng, ti) ->
  nth k ps false = true \/ nth k ng false = true ->
  refraction (film_exit_angle t (S k)) ns nm <> None.
Proof.
  intros Hs Hm Hw Hd He Hk.
  pose proof (film_exits_nth nt nm th zl t Hw) as H. cbn in He. rewrite He in H.
  destruct H as (L1 & L2 & L3 & H).
  assert (Hlt : (k < length (t_dir t))%nat).
  { destruct Hk as [Hk|Hk]; apply nth_true_lt in Hk; lia. }
  specialize (H k Hlt).
  assert (Hkz := dirs_ok_nth t k Hd).
  assert (Hnt : no_tir_film nt nm (vz (nth k (t_dir t) vzero)) = true).
  { unfold film_flags in H. cbv zeta in H. injection H as E1 E2 E3.
    destruct Hk as [Hk|Hk].
    - rewrite Hk in E1. symmetry in E1. apply andb_true_iff in E1 as [E1 _].
      apply andb_true_iff in E1. tauto.
    - rewrite Hk in E2. symmetry in E2. apply andb_true_iff in E2 as [E2 _].
      apply andb_true_iff in E2. tauto. }
  destruct (Rle_lt_dec nm nt) as [Hle|Hgt].
  2: { rewrite no_tir_dense in Hnt by lra. discriminate. }
  apply no_tir_steep in Hnt; [|lra|lra|exact Hkz].
  unfold film_exit_angle. cbn [select_col].
  rewrite (nth_map_in vz _ _ vzero) by exact Hlt.
  apply refraction_out; [lra|exact Hm|apply film_angle_range|].
  rewrite film_angle_sin by exact Hkz. unfold steep in Hnt.
  assert (0 <= sqrt (1 - vz (nth k (t_dir t) vzero) ^ 2)) by apply sqrt_pos. nra.
Qed.

Lemma refraction_lower_index th n1 n2 m : 0 < n1 <= n2 -> 0 < m ->
  refraction th n2 m <> None -> refraction th n1 m <> None.
Proof.
  intros Hn Hm H. unfold refraction in *.
  destruct (Rltb 1 (Rabs (n2 / m * sin th))) eqn:E; [exfalso; apply H; reflexivity|].
  apply Rltb_false in E.
  replace (Rltb 1 (Rabs (n1 / m * sin th))) with false; [discriminate|].
  symmetry. apply Rltb_false. eapply Rle_trans; [|exact E].
  rewrite !Rabs_mult. apply Rmult_le_compat_r; [apply Rabs_pos|].
  assert (0 < / m) by (now apply Rinv_0_lt_compat).
  assert (0 < n1 / m) by (apply Rmult_lt_0_compat; lra).
  assert (n1 / m <= n2 / m) by (apply Rmult_le_compat_r; lra).
  rewrite !Rabs_pos_eq; lra.
Qed.

(** Every recorded sphere exit can refract out. *)
Lemma sphere_exit_refracts nt ns nm th zl t ps ng ti k :
  0 < ns <= nt -> 0 < nm -> wf_len t ->
  find_valid_exits nt nm th zl sphere t = (ps, ng, ti) ->
  first_true (map2 orb ng ps) k ->
  refraction (fst (sphere_exit_angle th t (S k))) ns nm <> None.
Proof.
  intros Hs Hm Hw He [Hk Hf]. cbn in He. unfold find_valid_exits_sphere in He.
  set (pot := map (outside (th / 2)) (tl (t_pos t))) in *.
  set (kzc := exit_kz (argmax_padded pot) t th nt nm) in *.
  injection He as E1 E2 E3.
  assert (Hn : forall (f : bool -> bool) j, f false = false -> nth j (map f pot) false = f (nth j pot false)).
  { intros f j Hff. rewrite <- Hff at 1. apply map_nth. }
  assert (Hor : forall j, nth j (map2 orb ng ps) false
      = nth j pot false && (match kzc with Some z => Rltb z 0 | None => false end
                            || match kzc with Some z => Rltb 0 z | None => false end)).
  { intros j. rewrite nth_map2_bool; [|rewrite <- E1, <- E2; rewrite !map_length; reflexivity|reflexivity].
    rewrite <- E1, <- E2. rewrite !Hn by reflexivity. destruct (nth j pot false); reflexivity. }
  rewrite Hor in Hk. apply andb_true_iff in Hk as [Hpk Hz].
  assert (Hfirst : first_true pot k).
  { split; [exact Hpk|]. intros j Hj. specialize (Hf j Hj). rewrite Hor, Hz, andb_true_r in Hf. exact Hf. }
  apply argmax_padded_first in Hfirst.
  assert (Hkz : kzc <> None) by (destruct kzc; [discriminate|discriminate Hz]).
  unfold kzc in Hkz. rewrite Hfirst in Hkz. unfold exit_kz in Hkz.
  destruct (sphere_exit_angle th t (S k)) as [a nv]. cbn [fst].
  apply (refraction_lower_index a ns nt); [exact Hs|exact Hm|].
  destruct (refraction a nt nm); congruence.
Qed.

Definition exact_ok (P : params) (ft : bool) : Prop :=
  p_gonio P = None /\ p_kz0rot P = None /\ p_detection P = PI / 2
  /\ Rabs (p_nsample P) <= choose_n_tir P /\ p_muabs P = 0.

Lemma detect_all P n T inc i : good_params P n -> exact_ok P true -> wf_len (T i) ->
  (p_boundary P = film -> dirs_ok (T i)) ->
  sl_dr P T inc i = sl_rp P T inc i /\ sl_dt P T inc i = sl_tp P T inc i.
Proof.
  intros (Hm & Hs & Ht & _) (Hgo & _ & Hde & Hle & _) Hw Hd.
  assert (Hns : 0 < sl_ns P) by (apply Rabs_pos_lt, Hs).
  destruct (find_valid_exits (sl_nt P) (p_nmedium P) (p_thickness P) (p_zlow P) (p_boundary P) (T i))
    as [[ps ng] ti] eqn:E.
  destruct (trajectory_outcome _ _ _ _ _ _ _ _ _ Hw E) as [r [t [s [He Ho]]]].
  assert (Etr : sl_tr P T i = T i) by (unfold sl_tr; now rewrite Hgo).
  assert (Eri : sl_ri P T i = r) by (unfold sl_ri, sl_ev; rewrite Hgo, He; reflexivity).
  assert (Eti : sl_ti P T i = t) by (unfold sl_ti, sl_ev; rewrite He; reflexivity).
  assert (G : forall ev w, (ev = 0%nat /\ w = 0) \/
     (exists k, ev = S k /\ first_true (map2 orb ng ps) k /\ (nth k ps false = true \/ nth k ng false = true)) ->
     detect1 (sl_ns P) (p_nmedium P) (p_detection P) (exit_angle P (T i) ev) w = w).
  { intros ev w [[-> ->]|(k & -> & Hk & Hk2)].
    - destruct (detect1_cases (sl_ns P) (p_nmedium P) (p_detection P) (exit_angle P (T i) 0) 0); assumption.
    - rewrite Hde. apply detect1_full. unfold exit_angle. unfold sl_nt in E. destruct (p_boundary P).
      + eapply film_exit_refracts; eauto. 
      + eapply sphere_exit_refracts; eauto. }
  unfold sl_dr, sl_dt, sl_ar, sl_at. rewrite Etr. split; apply G.
  - rewrite Eri. destruct Ho as [(_ & _ & Hr & _) | [(k & Hf & Hk & _ & Hr & _) | (k & _ & _ & _ & Hr & _)]].
    + left. split; [exact Hr|]. unfold sl_rp, sl_rw. rewrite Eri, Hr. cbn. ring.
    + right. exists k. auto.
    + left. split; [exact Hr|]. unfold sl_rp, sl_rw. rewrite Eri, Hr. cbn. ring.
  - rewrite Eti. destruct Ho as [(_ & _ & _ & Hr & _) | [(k & Hf & Hk & _ & _ & Hr & _) | (k & Hf & Hk & _ & _ & Hr & _)]].
    + left. split; [exact Hr|]. unfold sl_tp, sl_tw. rewrite Eti, Hr. cbn. ring.
    + left. split; [exact Hr|]. unfold sl_tp, sl_tw. rewrite Eti, Hr. cbn. ring.
    + right. exists k. auto.
Qed.

Lemma crt_exact fuel : forall angs steps P ft d n T W o,
  (0 < n)%nat -> good_params P n -> exact_ok P true ->
  (p_boundary P = sphere \/ (p_run P = false /\ ft = false /\ forall i, W i = 1)) ->
  (forall e i k, 0 <= steps e i k) ->
  (forall i, (i < n)%nat -> 0 <= W i <= 1 /\ wf_len (T i)
     /\ t_w (T i) = repeat (W i) (length (t_dir (T i)))
     /\ (p_boundary P = film -> dirs_ok (T i))) ->
  calc_refl_trans fuel angs steps P ft d (map T (seq 0 n)) = Ok (Some o) ->
  exists inc, inc_ok ft n inc
    /\ o_refl o + o_trans o = total (map (fun i => inc i * W i + (1 - inc i)) (seq 0 n)) / INR n.
Proof.
  induction fuel as [|fuel IH]; intros angs steps P ft d n T W o Hn Hg Hx Hb Hst HW H;
    [discriminate|]. cbn [calc_refl_trans] in H.
  destruct (first_pass P ft (map T (seq 0 n))) as [[q|]|e] eqn:Eq; [|discriminate|discriminate].
  cbn [bind] in H.
  destruct (first_pass_slots P ft n T q Hg Eq) as (inc & di & Hinc & Hdi & -> & Har & Hat).
  exists inc. split; [exact Hinc|].
  assert (Hcol : forall i, (i < n)%nat -> col_ok (W i) (T i)).
  { intros i Hi. destruct (HW i Hi) as (Hwi & Hwf & Hr & _). split; [exact Hwf|].
    rewrite Hr. apply Forall_forall. intros x Hin. apply repeat_spec in Hin. lra. }
  assert (HB : forall i, (i < n)%nat -> _) by
    (intros i Hi; exact (slot_bounds P ft n T inc Hg Hinc Har Hat (W i) i Hi (proj1 (proj1 (HW i Hi))) (Hcol i Hi))).
  assert (HE : forall i, (i < n)%nat -> sl_rw P T inc i + sl_tw P T inc i + sl_sw P T inc i = inc i * W i).
  { intros i Hi. destruct (HW i Hi) as (_ & Hwf & Hr & _). destruct Hx as (Hgo & _).
    apply (slot_exact P n T inc (W i) i); auto. }
  assert (HD : forall i, (i < n)%nat -> sl_dr P T inc i = sl_rp P T inc i /\ sl_dt P T inc i = sl_tp P T inc i).
  { intros i Hi. destruct (HW i Hi) as (_ & Hwf & _ & Hd). eapply detect_all; eauto. }
  cbv beta in HB.
  assert (HI : 0 < INR n) by (apply lt_0_INR; lia).
  assert (Hdi2 : forall i, (i < n)%nat -> di i = 1 - inc i).
  { destruct Hx as (_ & Hk & Hde & _). apply (proj2 Hdi Hk Hde). }
  rewrite map_length, seq_length in H.
  assert (Hsplit : forall i, sl_rp P T inc i + sl_rf P T inc i = sl_rw P T inc i
                          /\ sl_tp P T inc i + sl_tf P T inc i = sl_tw P T inc i).
  { intros i. unfold sl_rf, sl_tf. lra. }
  destruct (p_run P && Nat.ltb d (p_maxdepth P) && Rltb (p_maxstuck P) _) eqn:Erun.
  - (* re-run: a sphere *)
    assert (Hsph : p_boundary P = sphere).
    { destruct Hb as [Hb|[Hb _]]; [exact Hb|]. rewrite Hb in Erun. discriminate. }
    unfold sl_pass in H. cbn [q_exit q_refl_det q_inc_refl_det q_trans_det q_stuck q_refl_i q_trans_i q_tir_i q_trs
       sl_exit x_refl_fresnel x_trans_fresnel] in H.
    rewrite !map2_maps, !map_map, !combine_maps in H.
    destruct (rerun_all _ _ _ _ _ _) as [trs'|e] eqn:Er; [|discriminate]. cbn [bind] in H.
    destruct (rerun_all_slots _ _ _ _ _ _ _ _ _ _ Er) as [T' [-> HT']].
    destruct (calc_refl_trans fuel _ _ _ _ _ _) as [[o'|]|e] eqn:Ec; [|discriminate|discriminate].
    cbn [bind] in H. inversion H; subst o; clear H.
    pose proof (IH angs steps (nested_params P) true (S d) n T'
       (fun i => sl_rf P T inc i + sl_tf P T inc i + sl_sw P T inc i) o' Hn (nested_good P n n Hg)) as IH'.
    destruct IH' as (inc' & Hinc' & Esum).
    + unfold exact_ok, nested_params, choose_n_tir; cbn. destruct Hx as (_ & _ & _ & _ & Hmu).
      repeat split; auto. lra.
    + left. exact Hsph.
    + exact Hst.
    + intros i Hi. destruct (HB i Hi) as (B1 & B2 & B3 & B4 & B5 & B6 & B7 & B8).
      destruct (Hinc i Hi) as [Hin _]. destruct (HW i Hi) as [HWi [Hwf _]].
      destruct (Hsplit i) as [S1 S2].
      assert (inc i * W i <= 1) by nra.
      assert (Hpos : (0 < length (t_pos (sl_tr P T i)))%nat)
        by (rewrite sl_tr_pos; destruct Hwf as [-> _]; lia).
      destruct Hx as (_ & _ & _ & _ & Hmu).
      destruct (rerun_traj_col _ _ _ _ _ _ _ _ _ Hpos
         (ltac:(lra) : 0 <= sl_rf P T inc i + sl_tf P T inc i + sl_sw P T inc i)
         (ltac:(rewrite Hmu; lra) : 0 <= p_muabs P) (Hst d i) (HT' i (conj (Nat.le_0_l i) Hi)))
        as [[Hwf' _] Hrep].
      split; [lra|]. split; [exact Hwf'|]. split; [exact (Hrep Hmu)|].
      cbn. rewrite Hsph. discriminate.
    + exact Ec.
    + unfold make_outcome. cbn [o_refl o_trans].
      assert (E' : total (map (fun i => inc' i * (sl_rf P T inc i + sl_tf P T inc i + sl_sw P T inc i) + (1 - inc' i)) (seq 0 n))
             = total (map (fun i => sl_rf P T inc i + sl_tf P T inc i + sl_sw P T inc i) (seq 0 n))).
      { apply total_map_ext. intros i Hi. apply in_seq in Hi.
        destruct (Hinc' i ltac:(lia)) as [_ H1]. rewrite (H1 eq_refl). ring. }
      rewrite E' in Esum.
      transitivity ((o_refl o' + o_trans o')
         + (total (map (fun i => (sl_dr P T inc i + di i) / INR n) (seq 0 n))
            + total (map (fun i => sl_dt P T inc i / INR n) (seq 0 n)))).
      { rewrite <- (Rsum_total (map (fun i => (sl_dr P T inc i + di i) / INR n) (seq 0 n))),
                <- (Rsum_total (map (fun i => sl_dt P T inc i / INR n) (seq 0 n))). ring. }
      rewrite Esum, !total_div, <- !Rdiv_plus_distr, <- !total_map_plus. f_equal.
      apply total_map_ext. intros i Hi. apply in_seq in Hi. assert (Hi' : (i < n)%nat) by lia.
      destruct (HD i Hi') as [-> ->]. rewrite (Hdi2 i Hi'), <- (HE i Hi').
      destruct (Hsplit i) as [S1 S2]. lra.
  - unfold sl_pass in H. cbn [q_exit q_refl_det q_inc_refl_det q_trans_det q_stuck q_refl_i q_trans_i q_tir_i q_trs
       sl_exit x_refl_fresnel x_trans_fresnel x_refl_frac x_trans_frac q_refl_det_frac q_trans_det_frac] in H.
    destruct (distribute_ambig_traj_weights _ _ _ _ _ _ _ _ _ _ _ _) as [[[[R0 T0] rp] tp]|] eqn:Ed; [|discriminate].
    inversion H; subst o; clear H. cbn [make_outcome o_refl o_trans].
    assert (EDR : map (sl_dr P T inc) (seq 0 n) = map (sl_rp P T inc) (seq 0 n)).
    { apply map_ext_in. intros i Hi. apply in_seq in Hi. exact (proj1 (HD i (proj2 Hi))). }
    assert (EDT : map (sl_dt P T inc) (seq 0 n) = map (sl_tp P T inc) (seq 0 n)).
    { apply map_ext_in. intros i Hi. apply in_seq in Hi. exact (proj2 (HD i (proj2 Hi))). }
    rewrite EDR, EDT, !det_frac_same in Ed.
    assert (Edet : match p_gonio P with Some _ => true | None => false end = false)
      by (destruct Hx as (Hgo & _); now rewrite Hgo).
    rewrite Edet in Ed.
    eapply distribute_exact in Ed; [| exact Hn | lra | lra | reflexivity | reflexivity | reflexivity |].
    + rewrite Ed. f_equal. apply total_map_ext. intros i Hi. apply in_seq in Hi. assert (Hi' : (i < n)%nat) by lia.
      rewrite (Hdi2 i Hi'), <- (HE i Hi'). destruct (Hsplit i) as [S1 S2]. lra.
    + intros Hfilm x y Ex Ey. destruct Hb as [Hb|(_ & -> & HW1)]; [congruence|].
      apply ndiv_some in Ex as [Hk ->]. apply ndiv_some in Ey as [_ ->].
      assert (EK : sl_known P false n T inc = total (map (sl_rp P T inc) (seq 0 n)) + total (map (sl_tp P T inc) (seq 0 n))).
      { unfold sl_known. rewrite <- total_map_plus. apply total_map_ext. intros i Hi. apply in_seq in Hi.
        assert (Hi' : (i < n)%nat) by lia. specialize (HE i Hi'). rewrite HW1 in HE. unfold sl_ab. lra. }
      rewrite <- Rdiv_plus_distr, <- EK. field. exact Hk.
Qed.
