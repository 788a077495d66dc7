(** Distributions over event numbers: C45-C47 and C75-C78. *)
From Coq Require Import Lra Lia Psatz.
From Verif Require Import Spec Spec_detector Spec_events L_num L_exits L_weights L_slots
  M_event_distribution L_events L_tir.
Open Scope R_scope.

(** C45: calc_refl_trans_event always returns two arrays of 2 nevents + 1
    entries; entry 0 of the first is the whole entrance reflection, entry e the
    weight of the trajectories reflected (transmitted) at event e, and with all
    event numbers at most nevents the entries add up to the weight of all
    trajectories that left. *)
Theorem C45_event_distribution : forall refl inc trans refl_i trans_i n,
  length refl_i = length refl -> length trans_i = length trans ->
  Forall (fun i => (i <= n)%nat) refl_i -> Forall (fun i => (i <= n)%nat) trans_i ->
  exists re te, calc_refl_trans_event refl inc trans refl_i trans_i n = Ok (re, te) /\
    length re = (2 * n + 1)%nat /\ length te = (2 * n + 1)%nat /\
    nth 0 re 0 = total inc /\ nth 0 te 0 = 0 /\
    (forall e, (1 <= e <= n)%nat -> nth e re 0 = weight_where (Nat.eqb e) refl_i refl /\
                                    nth e te 0 = weight_where (Nat.eqb e) trans_i trans) /\
    (forall e, (n < e)%nat -> nth e re 0 = 0 /\ nth e te 0 = 0) /\
    total re = total inc + weight_where (fun i => negb (Nat.eqb i 0)) refl_i refl /\
    total te = weight_where (fun i => negb (Nat.eqb i 0)) trans_i trans.
Proof.
  intros rp ip tp ri ti n H1 H2 F1 F2.
  destruct (calc_refl_trans_event_ok rp ip tp ri ti n H1 H2)
    as [re [te [E [L1 [L2 [Z1 [Z2 [A [B [T1 T2]]]]]]]]]].
  exists re, te. repeat (split; [assumption|]). auto.
Qed.
Print Assumptions C45_event_distribution.

(** ... so, when trajectories that do not leave carry no weight (as in the
    arrays calc_refl_trans returns), to the total. *)
Theorem C45_event_distribution_total : forall refl inc trans refl_i trans_i n,
  length refl_i = length refl -> length trans_i = length trans ->
  Forall (fun i => (i <= n)%nat) refl_i -> Forall (fun i => (i <= n)%nat) trans_i ->
  (forall k, nth k refl_i 0%nat = 0%nat -> nth k refl 0 = 0) ->
  (forall k, nth k trans_i 0%nat = 0%nat -> nth k trans 0 = 0) ->
  exists re te, calc_refl_trans_event refl inc trans refl_i trans_i n = Ok (re, te) /\
    total re = total inc + total refl /\ total te = total trans.
Proof.
  intros rp ip tp ri ti n H1 H2 F1 F2 Z1 Z2.
  destruct (calc_refl_trans_event_ok rp ip tp ri ti n H1 H2)
    as [re [te [E [_ [_ [_ [_ [_ [_ [T1 T2]]]]]]]]]].
  assert (G : forall idx w, length idx = length w ->
    (forall k, nth k idx 0%nat = 0%nat -> nth k w 0 = 0) ->
    weight_where (fun i => negb (Nat.eqb i 0)) idx w = total w).
  { induction idx as [|i idx IH]; intros [|x w] Hl Hz; try discriminate; [reflexivity|].
    rewrite weight_where_cons. cbn [total]. rewrite IH.
    - specialize (Hz 0%nat). cbn [nth] in Hz.
      destruct (Nat.eqb_spec i 0); cbn [negb]; [rewrite Hz by assumption|]; lra.
    - cbn in Hl; lia.
    - intros k. apply (Hz (S k)). }
  exists re, te. split; [exact E|]. rewrite (T1 F1), (T2 F2), !G by assumption. auto.
Qed.
Print Assumptions C45_event_distribution_total.

(** C46: the redistribution of Fresnel-reflected weight over sampled events
    stays inside the array, adds exactly the two redistributed weights, lowers
    no entry, and puts the weight of event ev at ev plus the event drawn for
    it; ... *)
Theorem C46_fresnel_pdf : forall re samp_r samp_t ri ti rf tf cr ct n,
  length re = (2 * n + 1)%nat -> length ri = length rf -> length ti = length tf ->
  Forall (fun i => (i <= n)%nat) ri -> Forall (fun i => (i <= n)%nat) ti ->
  Forall (fun i => (2 <= i <= n)%nat) samp_r -> Forall (fun i => (1 <= i <= n)%nat) samp_t ->
  exists out, calc_refl_event_fresnel_pdf re samp_r samp_t ri ti rf tf cr ct n = Ok out /\
    length out = length re /\
    total out = total re + cr * weight_where (fun i => negb (Nat.eqb i 0)) ri rf
                         + ct * weight_where (fun i => negb (Nat.eqb i 0)) ti tf /\
    (0 <= cr -> 0 <= ct -> Forall (fun x => 0 <= x) rf -> Forall (fun x => 0 <= x) tf ->
       forall j, nth j re 0 <= nth j out 0) /\
    (forall j, nth j out 0 = nth j re 0
       + total (map (fun ev => if Nat.eqb j (ev + nth ev samp_r 0%nat)
                  then cr * weight_where (Nat.eqb ev) ri rf else 0) (seq 1 n))
       + total (map (fun ev => if Nat.eqb j (ev + nth ev samp_t 0%nat)
                  then ct * weight_where (Nat.eqb ev) ti tf else 0) (seq 1 n))).
Proof.
  intros re sr st ri ti rf tf cr ct n H1 H2 H3 F1 F2 F3 F4.
  apply fresnel_pdf_ok; try assumption.
  - eapply Forall_impl; [|exact F3]. cbn. intros; lia.
  - eapply Forall_impl; [|exact F4]. cbn. intros; lia.
Qed.
Print Assumptions C46_fresnel_pdf.

(** ... likewise over average events, provided at least one trajectory was
    reflected and at least one transmitted ... *)
Theorem C46_fresnel_avg_partial : forall re ri ti rf tf cr ct n,
  length re = (2 * n + 1)%nat -> length ri = length rf -> length ti = length tf ->
  Forall (fun i => (i <= n)%nat) ri -> Forall (fun i => (i <= n)%nat) ti ->
  Exists (fun i => i <> 0%nat) ri -> Exists (fun i => i <> 0%nat) ti ->
  exists out, calc_refl_event_fresnel_avg re ri ti rf tf cr ct n = Ok out /\
    length out = length re /\
    total out = total re + cr * weight_where (fun i => negb (Nat.eqb i 0)) ri rf
                         + ct * weight_where (fun i => negb (Nat.eqb i 0)) ti tf.
Proof. intros. apply fresnel_avg_ok; assumption. Qed.
Print Assumptions C46_fresnel_avg_partial.

(** ... without which the call raises (NaN cannot be converted to an index). *)
Theorem C46_fresnel_avg_raises_refuted : forall re ri ti rf tf cr ct n, (1 <= n)%nat ->
  Forall (fun i => i = 0%nat) ri \/ Forall (fun i => i = 0%nat) ti ->
  calc_refl_event_fresnel_avg re ri ti rf tf cr ct n = Err ValueError.
Proof. intros. apply fresnel_avg_err; assumption. Qed.
Print Assumptions C46_fresnel_avg_raises_refuted.

(** C47 is false of the code: the reflectances, entrance reflectances,
    transmittances and transmission events the caller passes do not matter at
    all; ... *)
Theorem C47_arguments_ignored_refuted : forall r1 i1 t1 ti1 r2 i2 t2 ti2 refl_i n ntraj,
  calc_refl_trans_event_traj r1 i1 t1 refl_i ti1 n ntraj
  = calc_refl_trans_event_traj r2 i2 t2 refl_i ti2 n ntraj.
Proof. reflexivity. Qed.
Print Assumptions C47_arguments_ignored_refuted.

(** ... what is returned as the reflectance of trajectory k at the entrance is
    the number of the event at which it leaves. *)
Theorem C47_returns_event_numbers_refuted : forall r i t ti refl_i n ntraj re te k,
  calc_refl_trans_event_traj r i t refl_i ti n ntraj = Ok (re, te) -> (k < ntraj)%nat ->
  nth k (nth 0 re []) 0 = INR (nth k refl_i 0%nat).
Proof.
  intros r i t ti ri n ntraj re te k H Hk. unfold calc_refl_trans_event_traj in H.
  destruct (Nat.eqb_spec (length (firstn ntraj ri)) ntraj) as [E|]; [|discriminate].
  inversion H. cbn [nth].
  rewrite (nth_indep _ 0 (INR 0)) by (rewrite map_length; lia).
  rewrite map_nth. f_equal.
  rewrite <- (firstn_skipn ntraj ri) at 2. rewrite app_nth1 by lia. reflexivity.
Qed.
Print Assumptions C47_returns_event_numbers_refuted.

(** ... and what is returned at a later event is, for a trajectory that leaves
    there, the number of that event times the number of trajectories that leave
    there, as reflectance and as transmittance; otherwise zero. *)
Theorem C47_entries_refuted : forall r i t ti refl_i n ntraj re te ev k,
  calc_refl_trans_event_traj r i t refl_i ti n ntraj = Ok (re, te) ->
  (k < ntraj)%nat -> (1 <= ev <= 2 * n)%nat ->
  nth k (nth ev re []) 0
  = (if (Nat.eqb (nth k refl_i 0%nat) ev && Nat.leb ev n)%bool
     then INR ev * INR (count_occ Nat.eq_dec (firstn ntraj refl_i) ev) else 0)
  /\ nth k (nth ev te []) 0 = nth k (nth ev re []) 0
  /\ nth k (nth 0 te []) 0 = 0.
Proof.
  intros r i t ti ri n ntraj re te ev k H Hk Hev. unfold calc_refl_trans_event_traj in H.
  destruct (Nat.eqb_spec (length (firstn ntraj ri)) ntraj) as [E|]; [|discriminate].
  set (idx := firstn ntraj ri) in *. cbv zeta in H.
  set (row := fun ev => map (fun i0 => if Nat.eqb i0 ev then sum_at (map INR idx) idx ev else 0) idx) in H.
  set (rows := map row (seq 1 n) ++ repeat (zeros ntraj) n) in H.
  assert (Ere : re = map INR idx :: rows) by congruence. assert (Ete : te = zeros ntraj :: rows) by congruence.
  subst re te. clear H.
  assert (Z : nth k (zeros ntraj) 0 = 0) by (unfold zeros; apply nth_repeat).
  destruct ev as [|e]; [lia|]. cbn [nth].
  assert (V : forall e', sum_at (map INR idx) idx e' = INR e' * INR (count_occ Nat.eq_dec idx e')).
  { intros e'. generalize idx. induction idx0 as [|j l IH]; [unfold sum_at; cbn; ring|].
    cbn [map]. rewrite sum_at_cons, IH. cbn [count_occ]. destruct (Nat.eq_dec j e') as [->|Hne].
    - rewrite Nat.eqb_refl, S_INR. ring.
    - rewrite (proj2 (Nat.eqb_neq _ _) Hne). ring. }
  assert (Ek : nth k idx 0%nat = nth k ri 0%nat).
  { unfold idx. rewrite <- (firstn_skipn ntraj ri) at 2. rewrite app_nth1 by (fold idx; lia). reflexivity. }
  split; [|split; [reflexivity|exact Z]].
  unfold rows. destruct (Nat.leb_spec (S e) n) as [Hle|Hgt].
  - rewrite app_nth1 by (rewrite map_length, seq_length; lia).
    rewrite (nth_indep _ [] (row 0%nat)) by (rewrite map_length, seq_length; lia).
    rewrite map_nth, seq_nth by lia. unfold row at 1.
    set (f := fun i0 => if Nat.eqb i0 (1 + e) then sum_at (map INR idx) idx (1 + e) else 0).
    rewrite (nth_indep (map f idx) 0 (f 0%nat)) by (rewrite map_length; lia).
    rewrite map_nth. unfold f. rewrite Ek, V, andb_true_r. reflexivity.
  - rewrite andb_false_r. rewrite app_nth2; rewrite map_length, seq_length; [|lia].
    rewrite (nth_indep _ [] (zeros ntraj)) by (rewrite repeat_length; lia).
    rewrite nth_repeat. exact Z.
Qed.
Print Assumptions C47_entries_refuted.

(** C75: calc_pdf_scat returns probability distributions over 2..nevents and
    1..nevents, proportional to the event weights, whenever some weight left. *)
Theorem C75_pdf_scat : forall re te n,
  length re = (2 * n + 1)%nat -> length te = (2 * n + 1)%nat -> (1 <= n)%nat ->
  Forall (fun x => 0 <= x) re -> Forall (fun x => 0 <= x) te ->
  (exists e, (2 <= e <= n)%nat /\ 0 < nth e re 0) ->
  (exists e, (1 <= e <= n)%nat /\ 0 < nth e te 0) ->
  exists pr pt, calc_pdf_scat re te n = (map Some pr, map Some pt) /\
    length pr = (n - 1)%nat /\ length pt = n /\
    total pr = 1 /\ total pt = 1 /\
    Forall (fun x => 0 <= x) pr /\ Forall (fun x => 0 <= x) pt /\
    (exists cr, 0 < cr /\ forall e, (2 <= e <= n)%nat -> nth (e - 2) pr 0 = nth e re 0 / cr) /\
    (exists ct, 0 < ct /\ forall e, (1 <= e <= n)%nat -> nth (e - 1) pt 0 = nth e te 0 / ct).
Proof.
  intros re te n Hr Ht Hn Fr Ft [er [Her Wr]] [et [Het Wt]].
  assert (Sub : forall l lo hi, Forall (fun x => 0 <= x) l ->
            Forall (fun x => 0 <= x) (slice l lo hi)).
  { intros l lo hi F. apply Forall_forall. intros x Hx. rewrite Forall_forall in F. apply F.
    unfold slice in Hx. rewrite <- (firstn_skipn hi l). apply in_or_app. left.
    rewrite <- (firstn_skipn lo (firstn hi l)). apply in_or_app. right. exact Hx. }
  assert (Pos : forall l j, Forall (fun x => 0 <= x) l -> 0 < nth j l 0 -> 0 < total l).
  { induction l as [|x l IH]; intros j F H; [destruct j; cbn in H; lra|].
    pose proof (Forall_inv F). cbn beta in *. pose proof (total_nonneg l (Forall_inv_tail F)).
    cbn [total]. destruct j; cbn [nth] in H; [lra|].
    pose proof (IH j (Forall_inv_tail F) H). lra. }
  assert (G : forall l lo e, length l = (2 * n + 1)%nat -> Forall (fun x => 0 <= x) l ->
    (lo <= e <= n)%nat -> 0 < nth e l 0 ->
    0 < total (slice l lo (n + 1)) /\
    exists p, normalise (slice l lo (n + 1)) = map Some p /\ length p = (n + 1 - lo)%nat /\
      total p = 1 /\ Forall (fun x => 0 <= x) p /\
      forall e, (lo <= e <= n)%nat -> nth (e - lo) p 0 = nth e l 0 / total (slice l lo (n + 1))).
  { intros l lo e Hl F He W.
    assert (T : 0 < total (slice l lo (n + 1))).
    { apply (Pos _ (e - lo)%nat); [apply Sub; exact F|]. rewrite slice_nth by lia.
      replace (lo + (e - lo))%nat with e by lia. exact W. }
    split; [exact T|].
    destruct (normalise_ok (slice l lo (n + 1)) T) as [p [E [Lp [Tp Fp]]]].
    exists p. split; [exact E|]. rewrite slice_length in Lp. split; [lia|].
    split; [exact Tp|]. split; [apply Fp, Sub, F|].
    intros e' He'. 
    assert (K : nth (e' - lo) (normalise (slice l lo (n + 1))) None
                = Some (nth (e' - lo) p 0)).
    { rewrite E. rewrite (nth_indep _ None (Some 0)) by (rewrite map_length; lia).
      apply map_nth. }
    unfold normalise in K.
    assert (Hlen : (e' - lo < length (slice l lo (n + 1)))%nat) by (rewrite slice_length; lia).
    rewrite (nth_indep _ None (ndiv 0 (Rsum (slice l lo (n + 1))))) in K
      by (rewrite map_length; exact Hlen).
    rewrite (map_nth (fun x => ndiv x (Rsum (slice l lo (n + 1))))) in K.
    pose proof (Rsum_total (slice l lo (n + 1))) as RT. rewrite RT in K.
    unfold ndiv in K. rewrite (proj2 (Reqb_false _ 0)) in K by lra.
    rewrite slice_nth in K by lia. replace (lo + (e' - lo))%nat with e' in K by lia.
    congruence. }
  destruct (G re 2%nat er Hr Fr Her Wr) as [Tr [pr [E1 [L1 [S1 [F1 V1]]]]]].
  destruct (G te 1%nat et Ht Ft Het Wt) as [Tt [pt [E2 [L2 [S2 [F2 V2]]]]]].
  exists pr, pt. unfold calc_pdf_scat. rewrite E1, E2.
  split; [reflexivity|]. split; [lia|]. split; [lia|].
  repeat (split; [assumption|]). split; eexists; eauto.
Qed.
Print Assumptions C75_pdf_scat.

(** C76: weights of totally internally reflected trajectories.  Trajectories
    counted in [tir_single_*] are counted in [tir_all_*] at the same event,
    single-scattering entries sit at event 2 only and agree with all of event
    2, and no more than the incident light is counted.  Hypotheses: at least
    one trajectory, entrance reflections and weights are fractions. *)
Theorem C76_tir_events : forall bools ri ti inc ns nm b trs n th out,
  (0 < length trs)%nat -> length bools = length trs -> length ri = length trs ->
  length ti = length trs -> length inc = length trs -> 0 < ns -> 0 < nm ->
  Forall (fun x => 0 <= x <= 1) inc ->
  Forall (fun t => Forall (fun w => 0 <= w <= 1) (t_w t)) trs ->
  calc_tir bools ri ti inc ns nm b trs n th = Ok out ->
  (forall e, 0 <= nth e (ti_single out) 0 <= nth e (ti_all out) 0 /\
             0 <= nth e (ti_single_refl out) 0 <= nth e (ti_all_refl out) 0) /\
  (forall e, e <> 2%nat -> nth e (ti_single out) 0 = 0) /\
  nth 2 (ti_single out) 0 = nth 2 (ti_all out) 0 /\
  total (ti_all out) <= 1 /\ total (ti_all_refl out) <= 1.
Proof.
  intros bools ri ti inc ns nm b trs n th out H0 H1 H2 H3 H4 Hs Hm Hinc Hw Hok.
  set (t0 := mk_traj [] [] []).
  rewrite (list_as_map [] bools), (list_as_map 0%nat ri), (list_as_map 0%nat ti),
    (list_as_map 0 inc), (list_as_map t0 trs), H1, H2, H3, H4 in Hok.
  destruct (tir_facts (length trs) n (fun i => nth i trs t0) (fun i => nth i bools [])
    (fun i => nth i ri 0%nat) (fun i => nth i ti 0%nat) (fun i => nth i inc 0) ns nm th b out H0
    Hs Hm) as [_ [_ [_ [_ [A [B [C [D [E _]]]]]]]]].
  - intros k Hk. rewrite Forall_forall in Hinc. apply Hinc, nth_In. lia.
  - intros k Hk. rewrite Forall_forall in Hw. apply Hw, nth_In. lia.
  - exact Hok.
  - auto.
Qed.
Print Assumptions C76_tir_events.

(** ... a trajectory is counted at the first event at which it is totally
    reflected, and only if it has not left before; ... *)
Theorem C76_tir_first_and_inside : forall n flags r t, (length flags <= n)%nat ->
  match tir_index n flags r t with
  | O => never_true flags \/ exists i, first_true flags i /\ ((0 < r <= i)%nat \/ (0 < t <= i)%nat)
  | S i => first_true flags i /\ (r = 0%nat \/ (i < r)%nat) /\ (t = 0%nat \/ (i < t)%nat)
  end.
Proof.
  intros n b r t H. destruct (tir_index_spec n b r t ltac:(lia)) as [[-> K]|[i [-> [A [_ [B C]]]]]].
  - destruct K as [K|[i [K1 K2]]]; [left; exact K|right; exists i; split; [exact K1|lia]].
  - split; [exact A|]. split; lia.
Qed.
Print Assumptions C76_tir_first_and_inside.

(** ... but total reflection at the last event is never counted. *)
Theorem C76_last_event_dropped_refuted :
  exists out, calc_tir [[true]] [0%nat] [0%nat] [0] 1.5 1 film
    [mk_traj [(0, 0, 0); (0, 0, 1)] [(0, 0, 1)] [1]] 1 2 = Ok out /\
  tir_index 1 [true] 0 0 = 1%nat /\ total (ti_all out) = 0.
Proof.
  set (t := mk_traj _ _ _).
  assert (A : Forall (fun x => x <= PI / 2) [film_angle 0]).
  { constructor; [apply film_angle_range|constructor]. }
  unfold calc_tir. cbn -[fresnel_pass_frac add_loop zeros film_angle].
  change (film_exit_angle t 0) with (film_angle 0).
  rewrite pass_frac_ok by exact A. cbn [bind].
  cbn [add_loop]. cbn [bind].
  eexists. split; [reflexivity|]. split; [reflexivity|].
  cbn [ti_all]. apply zeros_total.
Qed.
Print Assumptions C76_last_event_dropped_refuted.

(** C77: the path length of a trajectory is the sum of its steps up to its
    exit: non-negative, 0 for one that does not leave, and longer the later it
    leaves. *)
Theorem C77_path_length : forall steps idx k, length steps = length idx ->
  (k < length steps)%nat ->
  let s := nth k steps [] in let e := nth k idx 0%nat in
  length (calc_path_length steps idx) = length steps /\
  nth k (calc_path_length steps idx) 0 = total (firstn e s) /\
  (e = 0%nat -> nth k (calc_path_length steps idx) 0 = 0) /\
  (Forall (fun x => 0 <= x) s -> 0 <= nth k (calc_path_length steps idx) 0 <= total s).
Proof.
  intros steps idx k Hl Hk s e.
  assert (V : length (calc_path_length steps idx) = length steps /\
              nth k (calc_path_length steps idx) 0 = total (firstn e s)).
  { unfold s, e. clear s e. revert idx k Hl Hk. unfold calc_path_length.
    induction steps as [|s0 steps IH]; intros [|i idx] k Hl Hk; try discriminate; [cbn in Hk; lia|].
    cbn [map2 length]. cbn in Hl, Hk. split.
    - f_equal. destruct steps as [|s1 steps]; destruct idx; try discriminate; [reflexivity|].
      apply (IH _ 0%nat); cbn in *; lia.
    - destruct k; cbn [nth]; [apply Rsum_total|]. apply IH; lia. }
  destruct V as [V1 V2]. split; [exact V1|]. split; [exact V2|]. split.
  - intro E. rewrite V2, E. reflexivity.
  - intro F. rewrite V2. rewrite <- (firstn_skipn e s) at 3. rewrite total_app.
    assert (F1 : Forall (fun x => 0 <= x) (firstn e s)).
    { apply Forall_forall. intros x Hx. rewrite Forall_forall in F. apply F.
      rewrite <- (firstn_skipn e s). apply in_or_app; left; exact Hx. }
    assert (F2 : Forall (fun x => 0 <= x) (skipn e s)).
    { apply Forall_forall. intros x Hx. rewrite Forall_forall in F. apply F.
      rewrite <- (firstn_skipn e s). apply in_or_app; right; exact Hx. }
    apply total_nonneg in F1. apply total_nonneg in F2. lra.
Qed.
Print Assumptions C77_path_length.

(** C78: the table of angles holds, for a trajectory reflected at event e, the
    angle of row e at row e and 0 elsewhere, for e below nevents ... *)
Theorem C78_thetas_partial : forall theta e n j, (e < n)%nat -> (j < n)%nat ->
  nth j (calc_thetas_event theta e n) 0
  = if Nat.eqb j e && negb (Nat.eqb e 0) then nth e theta 0 else 0.
Proof.
  intros theta e n j He Hj. unfold calc_thetas_event.
  rewrite (nth_map_in _ _ _ 0%nat) by (rewrite seq_length; exact Hj).
  rewrite seq_nth by exact Hj. cbn [Nat.add].
  destruct (Nat.eqb_spec j 0), (Nat.eqb_spec e j), (Nat.eqb_spec j e), (Nat.eqb_spec e 0);
    subst; cbn; try reflexivity; try lia; congruence.
Qed.
Print Assumptions C78_thetas_partial.

(** ... and nothing for a trajectory reflected at the last event. *)
Theorem C78_last_event_dropped_refuted : forall theta n j, (j < n)%nat ->
  nth j (calc_thetas_event theta n n) 0 = 0.
Proof.
  intros theta n j Hj. unfold calc_thetas_event.
  rewrite (nth_map_in _ _ _ 0%nat) by (rewrite seq_length; exact Hj).
  rewrite seq_nth by exact Hj. cbn [Nat.add].
  destruct (Nat.eqb_spec j 0), (Nat.eqb_spec n j); try reflexivity; lia.
Qed.
Print Assumptions C78_last_event_dropped_refuted.

(** ** The hypotheses are met. *)

Example C45_example :
  calc_refl_trans_event [0.2; 0; 0.1] [0.04; 0.04; 0.04] [0; 0.3; 0] [2; 0; 1]%nat [0; 1; 0]%nat 2
  = Ok ([0.04 + (0.04 + (0.04 + 0)); 0 + (0.1 + 0); 0 + (0.2 + 0); 0; 0],
        [0; 0 + (0.3 + 0); 0 + 0; 0; 0]).
Proof. reflexivity. Qed.

Example C46_example :
  Forall (fun i => (i <= 3)%nat) [2; 0; 3]%nat /\ Exists (fun i => i <> 0%nat) [2; 0; 3]%nat.
Proof. split; [repeat constructor|]. constructor. lia. Qed.

Example C76_example : exists out, calc_tir [[false; true; false]] [3%nat] [0%nat] [0.04] 1.5 1 film
    [mk_traj [] [(0, 0, 1); (0, 0, 1); (0, 0, -1)] [1; 1; 1]] 4 2 = Ok out /\
    nth 2 (ti_all out) 0 = 0.96.
Proof.
  set (t := mk_traj _ _ _).
  assert (A : Forall (fun x => x <= PI / 2) [film_angle (-1)]).
  { constructor; [apply film_angle_range|constructor]. }
  unfold calc_tir. cbn -[fresnel_pass_frac film_angle].
  change (film_exit_angle t 3) with (film_angle (-1)).
  rewrite pass_frac_ok by exact A. cbn.
  eexists. split; [reflexivity|]. cbn. lra.
Qed.
