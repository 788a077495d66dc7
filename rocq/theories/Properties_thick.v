(** Films of different thickness, C150.  Vocabulary in Spec_thick.v. *)
From Coq Require Import Lra Lia Psatz.
From Verif Require Import Num Spec Spec_optics Spec_detector Spec_meta Spec_thick L_num L_montecarlo L_montecarlo2 L_init L_outcomes L_simulation
  L_meta L_meta3 L_meta4 L_thick M_init M_montecarlo M_detector M_simulation Properties_detector Properties_simulation Properties_meta.
Open Scope R_scope.

(** C150.  In an index-matched film a trajectory that is reflected from a film
    is reflected at the same event from any thicker film; one that never leaves
    the thin film never leaves the thick one; one that is transmitted by the thin
    film leaves the thick one at the same event or later, or not at all. *)
Theorem C150_fate : forall P th' t,
  index_matched P -> p_boundary P = film -> p_zlow P = 0 -> 0 < p_thickness P <= th' ->
  wf_len t -> dirs_ok t -> follows_directions t -> 0 <= vz (nth 0 (t_pos t) vzero) < p_thickness P ->
  let P' := with_thickness th' P in
  (reflected_at P t <> 0%nat -> reflected_at P' t = reflected_at P t /\ transmitted_at P' t = 0%nat)
  /\ (reflected_at P t = 0%nat -> transmitted_at P t = 0%nat -> reflected_at P' t = 0%nat /\ transmitted_at P' t = 0%nat)
  /\ (transmitted_at P t <> 0%nat ->
        (reflected_at P' t = 0%nat \/ transmitted_at P t <= reflected_at P' t)%nat
        /\ (transmitted_at P' t = 0%nat \/ transmitted_at P t <= transmitted_at P' t)%nat).
Proof.
  intros P th' t (Hn & Hm & _ & _) Hb Hz Hth Hw Hd Hf H0. unfold reflected_at, transmitted_at. cbn [with_thickness p_nsample p_nmedium p_thickness p_zlow p_boundary].
  rewrite Hm, Hb, Hz.
  destruct (fates (p_thickness P) th' (p_nsample P) t Hw Hd Hf Hth Hn H0) as [ti ti' E E'|i ti ti' Hi K E E'|i ti Hi K E Hcase].
  - rewrite E, E'. repeat split; congruence.
  - rewrite E, E'. repeat split; congruence.
  - rewrite E. split; [congruence|]. split; [discriminate|]. intros _.
    destruct Hcase as [(ti' & E')|(j & ti' & Hj & K' & [E'|E'])]; rewrite E'; split; lia.
Qed.
Print Assumptions C150_fate.

(** C150.  A thicker index-matched film reflects no less and transmits no more,
    up to the 10^-9 by which the code keeps its fractions away from 0/0, whatever
    it absorbs; without absorption exactly so. *)
Theorem C150_thicker : forall fuel angs steps P th' d trs o o',
  index_matched P -> plain P -> full_detection P -> p_boundary P = film -> p_run P = false -> p_zlow P = 0 ->
  0 < p_thickness P <= th' ->
  (forall t, In t trs -> col_ok 1 t /\ dirs_ok t /\ follows_directions t /\ fading t
                         /\ 0 <= vz (nth 0 (t_pos t) vzero) < p_thickness P) ->
  calc_refl_trans (S fuel) angs steps P false d trs = Ok (Some o) ->
  calc_refl_trans (S fuel) angs steps (with_thickness th' P) false d trs = Ok (Some o') ->
  o_refl o - / 10 ^ 9 <= o_refl o' /\ o_trans o' <= o_trans o + / 10 ^ 9
  /\ (p_muabs P = 0 -> 0 <= p_fine P <= 1 -> (forall t, In t trs -> flat 1 t) -> o_refl o <= o_refl o' /\ o_trans o' <= o_trans o).
Proof.
  intros fuel angs steps P th' d trs o o' (Hn & Hm & Hf & Hbk) Hpl Hfd Hb Hr Hz Hth Hp Ho Ho'.
  pose proof Hpl as (Hg & H1 & H2 & Hnp & Hnm).
  destruct (answered _ _ _ _ _ _ _ _ Hr Hg H1 H2 Ho) as (B1 & B2 & B3 & E1 & E2).
  destruct (answered (with_thickness th' P) _ _ _ _ _ _ _ Hr Hg H1 H2 Ho') as (_ & B2' & B3' & E1' & E2').
  destruct (thick_mono P (p_nsample P) th' Hn eq_refl Hm Hf Hbk Hb Hz Hfd Hnp Hth trs Hp B2 B3 B3') as (T1 & T2 & T3).
  change (c_R (with_thickness th' P) false) with (c_R P false) in E1'. change (c_T (with_thickness th' P) false) with (c_T P false) in E2'.
  change (/ 10 ^ 9) with EPS.
  rewrite E1, E1', E2, E2'. split; [exact T1|]. split; [exact T2|]. intros Hz0 Hfi Hfl. specialize (T3 Hfl). split; [exact T3|].
  assert (L : (0 < length trs)%nat).
  { destruct trs; [|cbn; lia]. exfalso. unfold bad_known in B3. rewrite Hb in B3. cbn in B3.
    rewrite (proj2 (Reqb_true _ _)) in B3 by reflexivity. discriminate. }
  assert (Et : trs = map (fun i => nth i trs (mk_traj [] [] [])) (seq 0 (length trs))) by apply list_as_map.
  assert (V : forall Q, Q = P \/ Q = with_thickness th' P -> valid_params Q (length trs) /\ plain Q /\ full_detection Q).
  { intros Q [->| ->]; (split; [|split; [exact Hpl|exact Hfd]]); unfold valid_params; cbn [with_thickness p_nmedium p_nsample p_fine p_nparticle p_nmatrix p_nfront p_nback p_kz0rot p_kz0refl];
    rewrite ?Hnp, ?Hnm, ?Hf, ?Hbk, ?H1, ?H2; repeat split; try lra; discriminate. }
  assert (G : forall i, (i < length trs)%nat -> wf_len (nth i trs (mk_traj [] [] [])) /\ dirs_ok (nth i trs (mk_traj [] [] [])) /\ flat 1 (nth i trs (mk_traj [] [] []))).
  { intros i Hi. assert (Hin : In (nth i trs (mk_traj [] [] [])) trs) by (apply nth_In; exact Hi). destruct (Hp _ Hin) as ((A & _) & B & _). auto. }
  rewrite Et in Ho, Ho'.
  destruct (V P (or_introl eq_refl)) as (V1 & V2 & V3). destruct (V _ (or_intror eq_refl)) as (W1 & W2 & W3).
  pose proof (C31_film_energy _ _ _ _ _ _ _ _ L V1 V2 V3 Hb Hr Hz0 G Ho) as C1.
  pose proof (C31_film_energy _ _ _ _ _ _ _ _ L W1 W2 W3 Hb Hr Hz0 G Ho') as C2.
  rewrite E1, E2 in C1. rewrite E1', E2' in C2. lra.
Qed.
Print Assumptions C150_thicker.

(** The trajectories of a run follow their directions and fade. *)
Lemma run_paths nev mu ang (steps : list (list R)) : (0 < nev)%nat -> 0 <= mu -> length steps = nev ->
  (forall i, Forall (fun x => 0 <= x) (map (fun row => nth i row 0) steps)) ->
  forall l i trs, (forall s, In s l -> snd s = repeat 1 nev) -> run_trajs nev mu ang steps i l = Ok (Some trs) ->
  forall t, In t trs -> follows_directions t /\ fading t.
Proof.
  intros Hnev Hmu Hl Hst. induction l as [|s l IH]; intros i trs Hw E t Ht.
  - cbn in E. injection E as <-. destruct Ht.
  - cbn [run_trajs] in E. destruct (run_traj nev mu (ang i) _ s) as [[t0|]|e] eqn:E0; cbn [bind] in E; try discriminate.
    + destruct (run_trajs nev mu ang steps (S i) l) as [[ts|]|e] eqn:E1; cbn [bind] in E; try discriminate. injection E as <-.
      destruct Ht as [<-|Ht]; [|apply (IH (S i) ts); auto; intros; apply Hw; now right].
      specialize (Hst i). set (col := map (fun row => nth i row 0) steps) in *.
      assert (Hc : length col = nev) by (unfold col; now rewrite map_length).
      destruct s as [[p k] w]. pose proof (Hw (p, k, w) (or_introl eq_refl)) as Ew. cbn in Ew. subst w. unfold run_traj in E0.
      destruct k as [k|]; [|discriminate].
      destruct (scatter _ _) as [dirs|e] eqn:Es; cbn [bind] in E0; [|discriminate]. injection E0 as <-.
      assert (Ld : length dirs = nev).
      { destruct (scatter_keeps_length _ _ _ _ Es) as (_ & Ld & _). rewrite Ld, repeat_length. lia. }
      split.
      * intros j Hj. cbn [t_dir t_pos] in *. exists (nth j col 0).
        pose proof (move_step p (repeat vzero nev) dirs col j ltac:(lia) ltac:(lia)) as M.
        assert (G : forall a b k' q, vsub a b = vscale q k' -> vz a = vz b + q * vz k').
        { intros [[x y] z] [[x' y'] z'] [[kx ky] kz] q M'. unfold vsub, vscale in M'. cbn in M' |- *. assert (z - z' = q * kz) by congruence. lra. }
        apply G. exact M.
      * intros a b Hab. cbn [t_w] in *. rewrite absorb_length in Hab by (rewrite repeat_length; lia).
        rewrite <- Hc in *. destruct Hab as [Hab Hb]. induction Hab as [|b Hab IHb]; [lra|].
        eapply Rle_trans; [apply absorb_decreasing; auto; lra|]. apply IHb. lia.
    + destruct (run_trajs nev mu ang steps (S i) l) as [[ts|]|e]; cbn [bind] in E; discriminate.
Qed.

(** C150.  The same for whole runs with the same draws: initialize, sample_step,
    the trajectories and calc_refl_trans.  (A run does not depend on the
    thickness before calc_refl_trans, so the draws mean the same.) *)
Theorem C150_run : forall nevents ntraj spot tmin tmax pmin pmax mu P th' D o o',
  (0 < nevents)%nat -> (0 < ntraj)%nat -> 0 < spot -> 0 < mu -> 0 <= p_muabs P ->
  in01 (d_l0 D) -> in01 (d_l1 D) -> (forall n i, 0 <= d_u D n i < 1) ->
  valid_params P ntraj -> index_matched P -> plain P -> full_detection P -> p_boundary P = film -> p_run P = false -> p_zlow P = 0 ->
  0 < p_thickness P <= th' ->
  film_run nevents ntraj spot tmin tmax pmin pmax mu P D = Ok (Some o) ->
  film_run nevents ntraj spot tmin tmax pmin pmax mu (with_thickness th' P) D = Ok (Some o') ->
  o_refl o - / 10 ^ 9 <= o_refl o' /\ o_trans o' <= o_trans o + / 10 ^ 9
  /\ (p_muabs P = 0 -> o_refl o <= o_refl o' /\ o_trans o' <= o_trans o).
Proof.
  intros nev ntraj spot tmin tmax pmin pmax mu P th' D o o' Hn Ht Hsp Hmu Ha H0 H1 Hu Hv Him Hpl Hfd Hb Hr Hz Hth Ho Ho'.
  unfold film_run in Ho, Ho'. cbn [with_thickness p_nmedium p_nsample p_muabs] in Ho'. pose proof Him as (Hns & Hnm & _).
  destruct (initialize_film_ok nev ntraj spot None None tmin tmax pmin pmax (p_nmedium P) (p_nsample P)
     (d_l0 D) (d_l1 D) (d_l2 D) (d_l3 D) Hsp ltac:(lra) ltac:(lra) H0 H1 ltac:(discriminate) ltac:(discriminate))
    as (l & El & Hl & Hst). rewrite El in Ho, Ho'. cbn [bind] in Ho, Ho'.
  destruct (trajectories_ok nev ntraj mu (p_muabs P) D l (fun _ p k => unit k /\ vz p = 0) Hn Hmu Hu Ha Hl) as (T & ET & HT).
  { intros j s Hj. specialize (Hst j s Hj). destruct s as [[p d] w]. cbn in Hst.
    destruct Hst as (Hz0 & _ & _ & -> & Hd & Hk). destruct d as [k|]; [|exfalso; apply Hd; [lra|reflexivity]].
    exists p, k. split; [reflexivity|]. split; [now apply Hk|]. exact Hz0. }
  assert (HP : forall t, In t (map T (seq 0 ntraj)) -> follows_directions t /\ fading t).
  { unfold trajectories in ET. rewrite sample_step_single in ET by lra. cbn [bind] in ET.
    eapply run_paths; [exact Hn|exact Ha| | | |exact ET].
    - unfold uniform_rows. now rewrite !map_length, seq_length.
    - intros i. apply column_nonneg; assumption.
    - intros s Hs. apply In_nth_error in Hs. destruct Hs as (j & Hj). specialize (Hst j s Hj). destruct s as [[p d] w]. cbn in Hst |- *. tauto. }
  rewrite ET in Ho, Ho'. cbn [bind] in Ho, Ho'.
  assert (HG : forall t, In t (map T (seq 0 ntraj)) -> col_ok 1 t /\ dirs_ok t /\ follows_directions t /\ fading t
                         /\ 0 <= vz (nth 0 (t_pos t) vzero) < p_thickness P).
  { intros t Hin. destruct (HP t Hin) as [F1 F2]. apply in_map_iff in Hin. destruct Hin as (i & <- & Hi). apply in_seq in Hi.
    destruct (HT i ltac:(lia)) as (p & k & (U & Z) & _ & Ep & _ & Hd & Hc & _). rewrite Ep, Z. repeat split; try assumption; try apply Hc; try lra. now apply Hd. }
  destruct (C150_thicker 21 (d_rang D) (d_rstep D) P th' 0 _ o o' Him Hpl Hfd Hb Hr Hz Hth HG Ho Ho') as (A1 & A2 & A3).
  split; [exact A1|]. split; [exact A2|]. intros Z. apply A3; [exact Z|apply Hv|].
  intros t Hin. apply in_map_iff in Hin. destruct Hin as (i & <- & Hi). apply in_seq in Hi.
  destruct (HT i ltac:(lia)) as (p & k & _ & _ & _ & _ & _ & _ & Hfl). now apply Hfl.
Qed.
Print Assumptions C150_run.

(** Index matching matters: with an index contrast there is a path that a film
    of thickness 1 reflects (after total reflection at its back) and one of
    thickness 2 transmits. *)
Definition folded : traj := mk_traj [(0, 0, 0); (0, 0, 6 / 5); (0, 0, 21 / 10)] [(0, 0, 1 / 2); (0, 0, 9 / 10)] [1; 1].
Theorem C150_contrast : 
  wf_len folded /\ dirs_ok folded /\ follows_directions folded
  /\ exists ti ti', event_indices 1.5 1 1 0 film folded = (2%nat, 0%nat, 0%nat, ti) /\ event_indices 1.5 1 2 0 film folded = (0%nat, 2%nat, 0%nat, ti').
Proof.
  assert (Hw : wf_len folded) by (repeat split; cbn; lia).
  assert (Hd : dirs_ok folded) by (unfold dirs_ok, folded; cbn [t_dir]; apply Forall_cons; [cbn; lra|apply Forall_cons; [cbn; lra|apply Forall_nil]]).
  assert (Hst : steep 1.5 1 (9 / 10)).
  { unfold steep. assert (sqrt (1 - (9 / 10) ^ 2) < 1 / 2); [|lra].
    rewrite <- (sqrt_pow2 (1 / 2)) by lra. apply sqrt_lt_1_alt. lra. }
  assert (Hns : ~ steep 1.5 1 (1 / 2)).
  { unfold steep. assert (2 / 3 <= sqrt (1 - (1 / 2) ^ 2)); [|lra].
    rewrite <- (sqrt_pow2 (2 / 3)) by lra. apply sqrt_le_1_alt. lra. }
  split; [exact Hw|]. split; [exact Hd|]. split.
  { intros i Hi. cbn in Hi. destruct i as [|[|i]]; [exists (12 / 5)|exists 1|lia]; cbn; lra. }
  destruct (first_exit_physical 1.5 1 2 folded 1 Hw Hd ltac:(lra) ltac:(lra) ltac:(cbn; lia)) as [_ X]; [|exact Hst|].
  { intros j Hj. destruct j as [|[|j]]; [cbn; lra|cbn; lra|lia]. }
  destruct X as (ti' & E'); [cbn; lra|].
  destruct (find_valid_exits 1.5 1 1 0 film folded) as [[ps ng] ti] eqn:He.
  destruct (trajectory_outcome _ _ _ _ _ _ _ _ _ Hw He) as [r [tt [s [Hev Ho]]]].
  destruct (film_lengths _ _ _ _ _ _ _ _ Hw He) as [L1 [L2 _]]. cbn in L1, L2.
  pose proof (film_exit_characterised 1.5 1 1 0 folded ps ng ti 0 0 Hw Hd ltac:(lra) ltac:(lra) He ltac:(cbn; lia)) as A.
  pose proof (film_exit_characterised 1.5 1 1 0 folded ps ng ti 1 1 Hw Hd ltac:(lra) ltac:(lra) He ltac:(cbn; lia)) as B.
  cbv zeta in A, B. destruct A as (A1 & A2 & _); [unfold in_slab; cbn; lra|]. destruct B as (B1 & B2 & _); [unfold in_slab; cbn; lra|].
  change (vz (nth 0 (t_dir folded) vzero)) with (1 / 2) in A1, A2. change (vz (nth 1 (t_dir folded) vzero)) with (9 / 10) in B1, B2.
  change (vz (nth 2 (t_pos folded) vzero)) with (21 / 10) in B1, B2.
  assert (P0 : nth 0 ps false = false) by (destruct (nth 0 ps false); [destruct (proj1 A1 eq_refl); tauto|reflexivity]).
  assert (N0 : nth 0 ng false = false) by (destruct (nth 0 ng false); [destruct (proj1 A2 eq_refl); tauto|reflexivity]).
  assert (N1 : nth 1 ng false = true) by (apply B2; split; [exact Hst|]; right; split; [reflexivity|cbn; lra]).
  exists (argmax_padded ti), ti'. split; [|exact E']. rewrite Hev.
  assert (F : first_true (map2 orb ng ps) 1).
  { split; [rewrite nth_map2_bool by (rewrite ?L1, ?L2; auto; lia); rewrite N1; reflexivity|].
    intros j Hj. replace j with 0%nat by lia. rewrite nth_map2_bool by (rewrite ?L1, ?L2; auto; lia). now rewrite N0, P0. }
  destruct Ho as [(N & _)|[(k & Fk & _ & _ & -> & -> & ->)|(k & Fk & Pk & _)]].
  - rewrite N in N1. discriminate.
  - rewrite (first_true_unique _ _ _ Fk F). reflexivity.
  - rewrite (first_true_unique _ _ _ Fk F) in Pk. pose proof (exits_exclusive _ _ _ _ _ _ _ _ _ 1 Hw He) as X. rewrite Pk, N1 in X. discriminate.
Qed.
Print Assumptions C150_contrast.

(** A non-absorbing index-matched film and a path that turns back at depth 3/2:
    transmitted by a film of thickness 1, reflected by one of thickness 2. *)
Definition matched_film : params :=
  mk_params 1 1.5 1.5 film 0 (PI / 2) None None false 20 (1 / 100) 0 None None None 0 None None.
Definition turns_back : traj := mk_traj [(0, 0, 0); (0, 0, 3 / 2); (0, 0, -1)] [(0, 0, 1); (0, 0, -1)] [1; 1].
Example C150_case : exists o o',
  calc_refl_trans 1 (fun _ _ _ => (0, 0)) (fun _ _ _ => 0) matched_film false 0 [turns_back] = Ok (Some o)
  /\ calc_refl_trans 1 (fun _ _ _ => (0, 0)) (fun _ _ _ => 0) (with_thickness 2 matched_film) false 0 [turns_back] = Ok (Some o')
  /\ o_refl o <= o_refl o'
  /\ transmitted_at matched_film turns_back = 1%nat /\ reflected_at (with_thickness 2 matched_film) turns_back = 2%nat.
Proof.
  assert (Hw : wf_len turns_back) by (repeat split; cbn; lia).
  assert (Hd : dirs_ok turns_back) by (unfold dirs_ok, turns_back; cbn [t_dir]; apply Forall_cons; [cbn; lra|apply Forall_cons; [cbn; lra|apply Forall_nil]]).
  assert (Hf : follows_directions turns_back).
  { intros i Hi. cbn in Hi. destruct i as [|[|i]]; [exists (3 / 2)|exists (5 / 2)|lia]; cbn; lra. }
  destruct (crossing_exits 1.5 1 turns_back 0 Hw Hd Hf) as (_ & _ & E1); [lra|lra|cbn; lia|intros j Hj; replace j with 0%nat by lia; cbn; lra|].
  destruct E1 as (ti & E1); [cbn; lra|].
  destruct (crossing_exits 1.5 2 turns_back 1 Hw Hd Hf) as (_ & E2 & _); [lra|lra|cbn; lia|intros [|[|j]] Hj; [cbn; lra|cbn; lra|lia]|].
  destruct E2 as (ti' & E2); [cbn; lra|].
  assert (V : forall th, valid_params (with_thickness th matched_film) 1 /\ plain (with_thickness th matched_film)).
  { intros th. split; [|repeat split]. unfold valid_params, matched_film; cbn. repeat split; try lra; discriminate. }
  assert (St : forall th, steep (Rabs (p_nsample (with_thickness th matched_film))) (p_nmedium (with_thickness th matched_film)) (vz (nth 0 (t_dir turns_back) vzero))).
  { intros th. cbn. rewrite Rabs_pos_eq by lra. unfold steep. replace (1 - 1 ^ 2) with 0 by ring. rewrite sqrt_0. lra. }
  assert (Fr : Forall fraction (t_w turns_back)) by (unfold fraction, turns_back; cbn [t_w]; apply Forall_cons; [lra|apply Forall_cons; [lra|apply Forall_nil]]).
  assert (Ab : Rabs 1.5 = 1.5) by (apply Rabs_pos_eq; lra).
  assert (X : forall th, (exists r t s ti, event_indices 1.5 1.5 th 0 film turns_back = (r, t, s, ti) /\ (0 < r + t)%nat /\ 0 < nth (r + t - 1) (t_w turns_back) 0) ->
     exists o, calc_refl_trans 1 (fun _ _ _ => (0, 0)) (fun _ _ _ => 0) (with_thickness th matched_film) false 0 [turns_back] = Ok (Some o)).
  { intros th H. destruct (V th) as [V1 V2].
    apply (C33_film_number_partial 0 (fun _ _ _ => (0, 0)) (fun _ _ _ => 0) (with_thickness th matched_film) 0 1 (fun _ => turns_back) 0 V1 V2 eq_refl eq_refl);
      try discriminate; [|lia|].
    - intros i _. split; [exact Hw|]. split; [exact Hd|]. split; [exact Fr|]. apply St.
    - cbn [with_thickness matched_film p_nsample p_nmedium p_thickness p_zlow]. rewrite Ab. exact H. }
  destruct (X 1) as (o & Eo); [exists 0%nat, 1%nat, 0%nat, ti; split; [exact E1|]; cbn; split; [lia|lra]|].
  destruct (X 2) as (o' & Eo'); [exists 2%nat, 0%nat, 0%nat, ti'; split; [exact E2|]; cbn; split; [lia|lra]|].
  change (with_thickness 1 matched_film) with matched_film in Eo.
  exists o, o'. split; [exact Eo|]. split; [exact Eo'|].
  split; [|split; [unfold transmitted_at; cbn [matched_film p_nsample p_nmedium p_thickness p_zlow p_boundary]; now rewrite E1|
           unfold reflected_at; cbn [with_thickness matched_film p_nsample p_nmedium p_thickness p_zlow p_boundary]; now rewrite E2]].
  apply (C150_thicker 0 (fun _ _ _ => (0, 0)) (fun _ _ _ => 0) matched_film 2 0 [turns_back] o o'); try reflexivity; try assumption.
  - repeat split; try reflexivity; cbn; lra.
  - repeat split.
  - cbn. lra.
  - intros t [<-|[]]. split; [split; [exact Hw|]; exact Fr|]. split; [exact Hd|]. split; [exact Hf|]. split; [|cbn; lra].
    intros i j Hij. cbn in Hij. destruct i as [|[|i]], j as [|[|j]]; cbn; lra || lia.
  - cbn. lra.
  - intros t [<-|[]]. reflexivity.
Qed.
