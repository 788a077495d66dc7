(** Lemmas for C160. *)
From Coq Require Import Lra Lia Psatz Reals List ZArith.
From Verif Require Import Num Spec Spec_detector Spec_meta Spec_direct Spec_estimate Spec_pathlaw M_init M_montecarlo M_model M_detector M_event_distribution M_simulation
  L_num L_init L_montecarlo L_weights L_outcomes L_exits L_meta L_meta3 L_local L_rough L_direct L_estimate.
Import ListNotations.
Open Scope R_scope.

Lemma view_all P v o : p_kz0rot P = None -> p_kz0refl P = None -> view_result P false v = Ok (Some o) ->
  o_refl_i o = map v_r v /\ o_trans_i o = map v_t v /\ o_inc_refl o = map (fun a => c_di P false a / INR (length v)) v.
Proof.
  intros Hk1 Hk2 H. unfold view_result in H. rewrite Hk1, Hk2, enter_closed in H by assumption.
  destruct (bad_in P false v); [discriminate|].
  destruct (negb false && existsb past (map (fun a => nan_to_num (v_in P a)) v))%bool; [discriminate|]. cbn [bind] in H.
  rewrite exit_closed in H.
  destruct (existsb past (map v_ar v) || existsb past (map v_at v))%bool; [discriminate|]. cbn [bind] in H.
  match type of H with match ?d with _ => _ end = _ => destruct d as [[[[r t] rp] tp]|]; [|discriminate] end.
  apply L_rough.Ok_inj in H. apply (f_equal (fun x => match x with Some y => y | None => o end)) in H. subst o.
  cbn [o_refl_i o_trans_i o_inc_refl]. split; [reflexivity|]. split; [reflexivity|].
  unfold detect_correct. generalize (INR (length v)) as q. intros q. clear. induction v as [|a v IH]; [reflexivity|]. cbn [map map2]. f_equal. exact IH.
Qed.

Lemma absorb_at a s n : select_col (absorb a (repeat 1 (length s)) s) n = select_col (repeat 1 (length s)) n * exp (- (a * Rsum (firstn n s))).
Proof.
  destruct n as [|n]; cbn [select_col]; [symmetry; apply Rmult_0_l|]. unfold absorb, cumsum. destruct (Nat.lt_ge_cases n (length s)) as [L|L].
  - rewrite (L_rough.nth_map2 _ _ _ _ 0 0 0) by (rewrite ?repeat_length, ?cumsum_from_length; exact L).
    rewrite cumsum_from_nth by exact L. rewrite Rplus_0_l. reflexivity.
  - rewrite !nth_overflow; [ring| |]; rewrite ?map2_length, ?repeat_length, ?cumsum_from_length; lia.
Qed.
Lemma view_absorbed P a w : film_view P (absorbed a w)
  = (fun v => mk_view (v_r v) (v_t v) (v_first v) (v_wr v * exp (- (a * Rsum (firstn (v_r v) (k_steps w))))) (v_wt v * exp (- (a * Rsum (firstn (v_t v) (k_steps w)))))
      (select_col (absorb a (repeat 1 (length (k_steps w))) (k_steps w)) (i_stuck (event_indices (choose_n_tir P) (p_nmedium P) (p_thickness P) (p_zlow P) (p_boundary P) (absorbed 0 w))))
      (v_ar v) (v_at v) (v_kz0 v) (v_ae v)) (film_view P (absorbed 0 w)).
Proof.
  assert (E0 : forall n, select_col (absorb 0 (repeat 1 (length (k_steps w))) (k_steps w)) n = select_col (repeat 1 (length (k_steps w))) n).
  { intros n. rewrite absorb_at, Rmult_0_l, Ropp_0, exp_0. ring. }
  unfold film_view. cbn [v_r v_t v_first v_wr v_wt v_ws v_ar v_at v_kz0 v_ae].
  assert (Ev : event_indices (choose_n_tir P) (p_nmedium P) (p_thickness P) (p_zlow P) (p_boundary P) (absorbed a w)
    = event_indices (choose_n_tir P) (p_nmedium P) (p_thickness P) (p_zlow P) (p_boundary P) (absorbed 0 w)) by reflexivity.
  rewrite Ev. change (t_w (absorbed a w)) with (absorb a (repeat 1 (length (k_steps w))) (k_steps w)).
  change (t_w (absorbed 0 w)) with (absorb 0 (repeat 1 (length (k_steps w))) (k_steps w)).
  rewrite !E0, <- !absorb_at. reflexivity.
Qed.

Lemma view_pathlaw P a W fuel angs steps d o0 o : p_run P = false -> p_gonio P = None -> p_kz0rot P = None -> p_kz0refl P = None ->
  calc_refl_trans (S fuel) angs steps P false d (map (absorbed 0) W) = Ok (Some o0) ->
  calc_refl_trans (S fuel) angs steps P false d (map (absorbed a) W) = Ok (Some o) ->
  o_refl_i o = o_refl_i o0 /\ o_trans_i o = o_trans_i o0 /\ o_inc_refl o = o_inc_refl o0
  /\ o_refl_pass o = weakened a (o_refl_pass o0) (calc_path_length (map k_steps W) (o_refl_i o0))
  /\ o_trans_pass o = weakened a (o_trans_pass o0) (calc_path_length (map k_steps W) (o_trans_i o0)).
Proof.
  intros Hr Hg Hk1 Hk2 H0 H. rewrite crt_view in H0, H by assumption.
  destruct (view_all P _ o0 Hk1 Hk2 H0) as (A1 & A2 & A3), (view_all P _ o Hk1 Hk2 H) as (B1 & B2 & B3).
  destruct (view_pass P _ o0 Hk1 Hk2 H0) as (A4 & A5), (view_pass P _ o Hk1 Hk2 H) as (B4 & B5).
  rewrite A1, A2, A3, A4, A5, B1, B2, B3, B4, B5. clear. rewrite !map_length. generalize (INR (length W)) as q. intros q.
  unfold weakened, calc_path_length.
  induction W as [|w W IH]; [repeat split; reflexivity|]. cbn [map map2]. destruct IH as (-> & -> & -> & -> & ->).
  rewrite !(view_absorbed P a w). set (v := film_view P (absorbed 0 w)). cbn [v_r v_t].
  repeat split; f_equal; unfold c_rp, c_tp, c_rw, c_tw; cbn [v_wr v_wt v_ar v_at].
  - change (v_inc P false v * (v_wr v * exp (- (a * Rsum (firstn (v_r v) (k_steps w))))) * pf1 (choose_n_tir P) (p_nfront P) (p_nmedium P) (v_ar v) / q
      = v_inc P false v * v_wr v * pf1 (choose_n_tir P) (p_nfront P) (p_nmedium P) (v_ar v) / q * exp (- (a * Rsum (firstn (v_r v) (k_steps w))))).
    unfold Rdiv. ring.
  - change (v_inc P false v * (v_wt v * exp (- (a * Rsum (firstn (v_t v) (k_steps w))))) * pf1 (choose_n_tir P) (p_nback P) (p_nmedium P) (v_at v) / q
      = v_inc P false v * v_wt v * pf1 (choose_n_tir P) (p_nback P) (p_nmedium P) (v_at v) / q * exp (- (a * Rsum (firstn (v_t v) (k_steps w))))).
    unfold Rdiv. ring.
Qed.
Definition made_walk (nev : nat) (mu : R) (D : draws) (p k : vec) (i : nat) : walk :=
  let dirs := map (scat_dir k (d_ang D i)) (seq 0 nev) in
  mk_walk (move (p :: repeat vzero nev) dirs (steps_of nev mu D i)) dirs (steps_of nev mu D i).
Lemma made_absorbed nev mu a D p k i : made nev mu a D p k i = absorbed a (made_walk nev mu D p k i).
Proof. unfold made, absorbed, made_walk. cbn [k_pos k_dir k_steps]. replace (length (steps_of nev mu D i)) with nev; [reflexivity|]. unfold steps_of. now rewrite map_length, seq_length. Qed.
Lemma made_steps nev mu D (p k : nat -> vec) n : map k_steps (map (fun i => made_walk nev mu D (p i) (k i) i) (seq 0 n)) = drawn_steps nev n mu D.
Proof. rewrite map_map. reflexivity. Qed.

Lemma exit_surface th z0 z1 kz s m : 0 < th -> 0 <= s -> z1 = z0 + s * kz -> in_slab 0 th z0 m ->
  (IZR m + 1) * th <= z1 \/ z1 < IZR m * th -> exists d, 0 <= d <= s /\ meets_surface th z0 kz d.
Proof.
  intros Ht Hs E [L U] H. rewrite Rplus_0_l in L, U.
  assert (G : forall x n, 0 < x -> z0 + x * kz = IZR n * th -> IZR m * th < z0 + x * kz < (IZR m + 1) * th -> False).
  { intros x n _ E1 [B1 B2]. rewrite E1 in B1, B2. apply Rmult_lt_reg_r in B1, B2; try exact Ht.
    rewrite <- plus_IZR in B2. apply lt_IZR in B1, B2. lia. }
  destruct H as [H|H].
  - assert (P1 : 0 < s * kz) by lra. assert (Hk : 0 < kz) by nra. exists (((IZR m + 1) * th - z0) / kz).
    set (d := _ / kz). assert (Ed : d * kz = (IZR m + 1) * th - z0) by (unfold d; field; lra).
    split; [nra|]. split; [exists (m + 1)%Z; rewrite plus_IZR; lra|].
    intros x [X1 X2] n En. apply (G x n X1 En). nra.
  - assert (P1 : s * kz < 0) by lra. assert (Hk : kz < 0) by nra. exists ((IZR m * th - z0) / kz).
    set (d := _ / kz). assert (Ed : d * kz = IZR m * th - z0) by (unfold d; field; lra).
    split; [nra|]. split; [exists m; lra|].
    intros x [X1 X2] n En. apply (G x n X1 En). nra.
Qed.

Lemma proper_wf a w : proper_walk w -> wf_len (absorbed a w) /\ dirs_ok (absorbed a w).
Proof.
  intros (H0 & H1 & H2 & H3 & _). split.
  - unfold wf_len, absorbed, absorb, cumsum. cbn [t_pos t_dir t_w]. rewrite map2_length, repeat_length, cumsum_from_length. lia.
  - unfold dirs_ok, absorbed. cbn [t_dir]. now apply Forall_forall.
Qed.

Lemma exit_at P w e : p_boundary P = film -> p_zlow P = 0 -> 0 < p_thickness P -> 0 < p_nmedium P <= choose_n_tir P ->
  proper_walk w -> v_r (film_view P (absorbed 0 w)) = S e \/ v_t (film_view P (absorbed 0 w)) = S e ->
  (e < length (k_steps w))%nat /\ exists d, 0 <= d <= nth e (k_steps w) 0
    /\ meets_surface (p_thickness P) (vz (nth e (k_pos w) vzero)) (vz (nth e (k_dir w) vzero)) d.
Proof.
  intros Hb Hz Hth Hm Hw He. destruct (proper_wf 0 w Hw) as [W1 W2]. unfold film_view in He. cbn [v_r v_t] in He. rewrite Hb, Hz in He.
  destruct (find_valid_exits (choose_n_tir P) (p_nmedium P) (p_thickness P) 0 film (absorbed 0 w)) as [[ps ng] ti] eqn:Hf.
  destruct (trajectory_outcome _ _ _ _ _ _ _ _ _ W1 Hf) as (r & tt & s & Ev & O). rewrite Ev in He. cbn [i_refl i_trans] in He.
  destruct Hw as (H0 & H1 & H2 & H3 & H4 & H5).
  assert (Q : (e < length (k_steps w))%nat /\ (nth e ps false = true \/ nth e ng false = true)).
  { change (t_dir (absorbed 0 w)) with (k_dir w) in O. rewrite H1 in O.
    destruct O as [(_ & _ & -> & -> & _)|[(i & _ & B & C & -> & -> & _)|(i & _ & B & C & -> & -> & _)]]; destruct He as [He|He]; try discriminate;
      injection He as <-; auto. }
  destruct Q as [Le Q]. split; [exact Le|].
  destruct (in_slab_exists 0 (p_thickness P) (vz (nth e (k_pos w) vzero)) Hth) as [m Hin].
  pose proof (film_exit_characterised _ _ _ _ _ ps ng ti e m W1 W2 Hth Hm Hf ltac:(cbn [absorbed t_dir]; lia)) as F. cbv zeta in F.
  cbn [absorbed t_pos t_dir] in F. rewrite Rminus_0_r in F. specialize (F Hin). destruct F as (F1 & F2 & _).
  refine (exit_surface (p_thickness P) _ (vz (nth (S e) (k_pos w) vzero)) _ _ m Hth _ (H5 e Le) Hin _).
  - apply H4, nth_In, Le.
  - rewrite !Rplus_0_l in F1, F2. destruct Q as [Q|Q]; [apply F1 in Q|apply F2 in Q]; destruct Q as [_ [[_ Q]|[_ Q]]]; auto.
Qed.
