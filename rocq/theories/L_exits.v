(** Proofs about exits and outcomes (C22-C26). *)
From Coq Require Import Lra Lia Psatz.
From Verif Require Export L_num L_init L_fresnel L_montecarlo M_detector Spec_detector.
Open Scope R_scope.

(* ------------------------------------------------------------------ *)
(** * argmax of a padded boolean column *)

Lemma max_list_b2n b :
  max_list (map b2n b) = 0%nat /\ never_true b
  \/ max_list (map b2n b) = 1%nat /\ exists i, first_true b i /\ (i < length b)%nat.
Proof.
  induction b as [|x b IH]; cbn.
  - left; split; [reflexivity|]. intros [|j]; reflexivity.
  - destruct x; cbn.
    + right. split.
      * destruct IH as [[-> _]|[-> _]]; reflexivity.
      * exists 0%nat. split; [|lia]. split; [reflexivity|]. intros; lia.
    + destruct IH as [[-> H]|[-> [i [[Hi Hf] Hl]]]].
      * left; split; [reflexivity|]. intros [|j]; [reflexivity|apply H].
      * right; split; [reflexivity|]. exists (S i). split; [|lia]. split; [exact Hi|].
        intros [|j] Hj; [reflexivity|apply Hf; lia].
Qed.

Lemma index_of_one b i : first_true b i -> (i < length b)%nat ->
  index_of 1 (map b2n b) = i.
Proof.
  revert i; induction b as [|x b IH]; intros i [Hi Hf] Hl; cbn in Hl; [lia|].
  destruct i as [|i]; cbn in *.
  - now rewrite Hi.
  - specialize (Hf 0%nat ltac:(lia)) as H0. cbn in H0. rewrite H0. cbn.
    f_equal. apply IH; [split|lia]; [exact Hi|].
    intros j Hj. apply (Hf (S j)); lia.
Qed.

Lemma argmax_padded_spec b :
  argmax_padded b = 0%nat /\ never_true b
  \/ exists i, argmax_padded b = S i /\ first_true b i /\ (i < length b)%nat.
Proof.
  unfold argmax_padded, argmax.
  destruct (max_list_b2n b) as [[Hm Hn]|[Hm [i [Hf Hl]]]]; cbn [max_list index_of]; rewrite Hm.
  - left; split; [reflexivity|exact Hn].
  - right; exists i. cbn. rewrite (index_of_one b i Hf Hl). auto.
Qed.

Lemma argmax_padded_never b : never_true b -> argmax_padded b = 0%nat.
Proof.
  intros H. destruct (argmax_padded_spec b) as [[H0 _]|[i [_ [[Hi _] _]]]]; [exact H0|].
  rewrite H in Hi; discriminate.
Qed.

Lemma first_true_unique b i j : first_true b i -> first_true b j -> i = j.
Proof.
  intros [Hi Fi] [Hj Fj]. destruct (lt_eq_lt_dec i j) as [[H|H]|H]; auto; exfalso.
  - rewrite (Fj i H) in Hi; discriminate.
  - rewrite (Fi j H) in Hj; discriminate.
Qed.

Lemma nth_true_lt b i : nth i b false = true -> (i < length b)%nat.
Proof.
  intros H. destruct (Nat.lt_ge_cases i (length b)) as [|Hl]; [assumption|].
  rewrite nth_overflow in H by lia. discriminate.
Qed.

Lemma argmax_padded_first b i : first_true b i -> argmax_padded b = S i.
Proof.
  intros H. destruct (argmax_padded_spec b) as [[_ Hn]|[j [-> [Hj _]]]].
  - destruct H as [Hi _]. rewrite Hn in Hi; discriminate.
  - now rewrite (first_true_unique b i j).
Qed.

(* ------------------------------------------------------------------ *)
(** * find_event_indices *)

(** What a set of exit flags means, without reference to argmax. *)
Definition exit_flags_or (neg pos : list bool) : list bool := map2 orb neg pos.

Lemma nth_map2_bool (f : bool -> bool -> bool) l m i :
  length l = length m -> f false false = false ->
  nth i (map2 f l m) false = f (nth i l false) (nth i m false).
Proof.
  intros Hl Hf. destruct (Nat.lt_ge_cases i (length l)) as [H|H].
  - apply map2_nth; lia.
  - rewrite !nth_overflow; auto; try lia. rewrite map2_length; lia.
Qed.

Lemma event_indices_cases neg pos tir :
  length neg = length pos -> (0 < length neg)%nat ->
  (forall i, nth i neg false && nth i pos false = false) ->
  exists r t s,
    find_event_indices neg pos tir = (r, t, s, argmax_padded tir)
    /\ ((never_true neg /\ never_true pos /\ r = 0%nat /\ t = 0%nat /\ s = length neg)
        \/ (exists i, first_true (map2 orb neg pos) i /\ nth i neg false = true
              /\ (i < length neg)%nat /\ r = S i /\ t = 0%nat /\ s = 0%nat)
        \/ (exists i, first_true (map2 orb neg pos) i /\ nth i pos false = true
              /\ (i < length neg)%nat /\ r = 0%nat /\ t = S i /\ s = 0%nat)).
Proof.
  intros Hl Hn Hd. unfold find_event_indices.
  destruct (argmax_padded_spec neg) as [[-> Nn]|[i [-> [[Hi Fi] Li]]]];
  destruct (argmax_padded_spec pos) as [[-> Np]|[j [-> [[Hj Fj] Lj]]]].
  - do 3 eexists; split; [reflexivity|]. left. cbn. repeat split; auto; lia.
  - do 3 eexists; split; [reflexivity|]. right; right. exists j.
    split; [|cbn; repeat split; auto; lia].
    split.
    + rewrite nth_map2_bool by auto. rewrite Hj. apply orb_true_r.
    + intros k Hk. rewrite nth_map2_bool by auto. now rewrite Nn, Fj.
  - do 3 eexists; split; [reflexivity|]. right; left. exists i.
    split; [|cbn; repeat split; auto; lia].
    split.
    + rewrite nth_map2_bool by auto. now rewrite Hi.
    + intros k Hk. rewrite nth_map2_bool by auto. now rewrite Np, Fi.
  - assert (i <> j) by (intros ->; specialize (Hd j); rewrite Hi, Hj in Hd; discriminate).
    do 3 eexists; split; [reflexivity|].
    destruct (Nat.lt_ge_cases i j) as [H1|H1].
    + right; left. exists i. split.
      * split.
        -- rewrite nth_map2_bool by auto. now rewrite Hi.
        -- intros k Hk. rewrite nth_map2_bool by auto. rewrite Fi, Fj; auto; lia.
      * assert (Nat.ltb (S i) (S j) = true) as -> by (apply Nat.ltb_lt; lia). cbn.
        repeat split; auto; lia.
    + right; right. exists j. split.
      * split.
        -- rewrite nth_map2_bool by auto. rewrite Hj. apply orb_true_r.
        -- intros k Hk. rewrite nth_map2_bool by auto. rewrite Fi, Fj; auto; lia.
      * assert (Nat.ltb (S i) (S j) = false) as -> by (apply Nat.ltb_ge; lia). cbn.
        repeat split; auto; lia.
Qed.

(* ------------------------------------------------------------------ *)
(** * Film exits *)

Lemma removelast_length {A} (l : list A) : length (removelast l) = (length l - 1)%nat.
Proof.
  induction l as [|a l IH]; [reflexivity|]. destruct l as [|b l]; [reflexivity|].
  cbn [removelast length] in *. lia.
Qed.
Lemma tl_length {A} (l : list A) : length (tl l) = (length l - 1)%nat.
Proof. destruct l; cbn; lia. Qed.
Lemma nth_tl {A} (l : list A) i d : nth i (tl l) d = nth (S i) l d.
Proof. destruct l; cbn; [destruct i; reflexivity|reflexivity]. Qed.
Lemma nth_removelast {A} (l : list A) i d : (S i < length l)%nat ->
  nth i (removelast l) d = nth i l d.
Proof.
  revert i; induction l as [|a l IH]; intros i H; [cbn in H; lia|].
  destruct l as [|b l]; [cbn in H; lia|].
  cbn [removelast]. destruct i as [|i]; [reflexivity|]. cbn [nth].
  apply IH. cbn [length] in *; lia.
Qed.

Lemma map3_length {A B C D} (f : A -> B -> C -> D) l m n :
  length (map3 f l m n) = Nat.min (length l) (Nat.min (length m) (length n)).
Proof.
  revert m n; induction l as [|a l IH]; intros [|b m] [|c n]; cbn; auto.
Qed.
Lemma map3_nth {A B C D} (f : A -> B -> C -> D) l m n i da db dc dd :
  (i < length l)%nat -> (i < length m)%nat -> (i < length n)%nat ->
  nth i (map3 f l m n) dd = f (nth i l da) (nth i m db) (nth i n dc).
Proof.
  revert m n i; induction l as [|a l IH]; intros [|b m] [|c n] [|i] H1 H2 H3; cbn in *; try lia; auto.
  apply IH; lia.
Qed.

(** Flags at event [i], from the positions before and after it. *)
Definition film_flags (ns nm th zl z0 z1 kz : R) : bool * bool * bool :=
  let f0 := z_floor th zl z0 in
  let f1 := z_floor th zl z1 in
  let p := pot_exit f0 f1 in
  let n := no_tir_film ns nm kz in
  let d := pos_dir f0 f1 in
  (p && n && d, p && n && negb d, p && negb n && negb d).


Lemma film_exits_nth ns nm th zl t :
  wf_len t ->
  let '(ps, ng, ti) := find_valid_exits_film ns nm th zl t in
  length ps = length (t_dir t) /\ length ng = length (t_dir t) /\ length ti = length (t_dir t)
  /\ forall i, (i < length (t_dir t))%nat ->
     (nth i ps false, nth i ng false, nth i ti false)
     = film_flags ns nm th zl (vz (nth i (t_pos t) vzero)) (vz (nth (S i) (t_pos t) vzero))
         (vz (nth i (t_dir t) vzero)).
Proof.
  intros [Hp [_ _]]. unfold find_valid_exits_film.
  set (fl := map (fun p => z_floor th zl (vz p)) (t_pos t)).
  assert (Hfl : length fl = S (length (t_dir t))) by (unfold fl; rewrite map_length; exact Hp).
  rewrite !map3_length, !map2_length, removelast_length, tl_length, map_length, Hfl.
  split; [lia|]. split; [lia|]. split; [lia|]. intros i Hi.
  rewrite !map3_nth with (da := false) (db := false) (dc := false)
    by (rewrite ?map2_length, ?removelast_length, ?tl_length, ?map_length, ?Hfl; lia).
  rewrite !map2_nth with (da := 0%Z) (db := 0%Z)
    by (rewrite ?removelast_length, ?tl_length, ?Hfl; lia).
  rewrite nth_removelast by lia. rewrite nth_tl.
  rewrite (nth_map_in (fun k => no_tir_film ns nm (vz k)) (t_dir t) i vzero false Hi).
  unfold fl.
  rewrite (nth_map_in (fun p => z_floor th zl (vz p)) (t_pos t) i vzero 0%Z) by lia.
  rewrite (nth_map_in (fun p => z_floor th zl (vz p)) (t_pos t) (S i) vzero 0%Z) by lia.
  reflexivity.
Qed.

(** The steepness test of the code is Snell's condition. *)
Lemma no_tir_steep ns nm kz :
  0 < ns -> 0 < nm <= ns -> -1 <= kz <= 1 ->
  (no_tir_film ns nm kz = true <-> steep ns nm kz).
Proof.
  intros Hs Hm Hk. unfold no_tir_film, steep.
  assert (Hr : 0 < nm / ns <= 1).
  { split; [apply Rdiv_lt_0_compat; lra|]. apply (Rmult_le_reg_r ns); [lra|].
    unfold Rdiv; rewrite Rmult_assoc, Rinv_l; lra. }
  replace (Rltb 1 (Rabs (nm / ns))) with false
    by (symmetry; apply Rltb_false; rewrite Rabs_pos_eq; lra).
  rewrite Rltb_true. rewrite cos_asin by lra.
  assert (Hnm : ns * (nm / ns) = nm) by (field; lra).
  set (r := nm / ns) in *.
  assert (Hk2 : kz ^ 2 <= 1) by nra.
  assert (H1 : 0 <= 1 - kz ^ 2) by lra.
  assert (H2 : 0 <= 1 - r²) by (unfold Rsqr; nra).
  assert (Habs : Rabs kz = sqrt (kz ^ 2)) by (rewrite <- sqrt_Rsqr_abs; f_equal; unfold Rsqr; ring).
  rewrite Habs. rewrite <- Hnm.
  assert (Hkn : 0 <= kz ^ 2) by nra.
  split; intros H.
  - apply Rmult_lt_compat_l; [lra|].
    apply sqrt_lt_0_alt in H.
    rewrite <- (sqrt_Rsqr r) by lra. apply sqrt_lt_1_alt. unfold Rsqr in *. lra.
  - apply Rmult_lt_reg_l in H; [|lra].
    apply sqrt_lt_1_alt. split; [lra|].
    rewrite <- (sqrt_Rsqr r) in H by lra. apply sqrt_lt_0_alt in H. unfold Rsqr in *. lra.
Qed.

Lemma no_tir_dense ns nm kz : 0 < ns -> ns < nm -> no_tir_film ns nm kz = false.
Proof.
  intros Hs Hm. unfold no_tir_film.
  replace (Rltb 1 (Rabs (nm / ns))) with true; [reflexivity|].
  symmetry. apply Rltb_true. rewrite Rabs_pos_eq.
  - apply (Rmult_lt_reg_r ns); [lra|]. unfold Rdiv; rewrite Rmult_assoc, Rinv_l; lra.
  - apply Rlt_le, Rdiv_lt_0_compat; lra.
Qed.

Lemma Int_part_unique x m : IZR m <= x < IZR m + 1 -> Int_part x = m.
Proof.
  intros H. pose proof (Int_part_spec x) as Hs.
  assert (IZR (Int_part x) < IZR (m + 1)) by (rewrite plus_IZR; lra).
  assert (IZR m < IZR (Int_part x + 1)) by (rewrite plus_IZR; lra).
  apply lt_IZR in H0. apply lt_IZR in H1. lia.
Qed.

Lemma z_floor_slab th zl z m : zl < th -> (in_slab zl (th - zl) z m <-> z_floor th zl z = m).
Proof.
  intros Ht. unfold in_slab, z_floor, floorZ.
  assert (Hd : 0 < th - zl) by lra. set (d := th - zl) in *.
  assert (Hz : z = zl + (z - zl) / d * d) by (field; lra).
  set (q := (z - zl) / d) in *. split.
  - intros H. apply Int_part_unique. rewrite Hz in H. nra.
  - intros <-. pose proof (Int_part_spec q). rewrite Hz. nra.
Qed.

(** Full characterisation of the film's exit flags. *)
Lemma film_flags_spec ns nm th zl z0 z1 kz m :
  zl < th -> 0 < ns -> 0 < nm <= ns -> -1 <= kz <= 1 ->
  in_slab zl (th - zl) z0 m ->
  let d := th - zl in
  let up := zl + (IZR m + 1) * d <= z1 in
  let down := z1 < zl + IZR m * d in
  let '(ps, ng, ti) := film_flags ns nm th zl z0 z1 kz in
  (ps = true <-> steep ns nm kz /\ ((Z.even m = true /\ up) \/ (Z.odd m = true /\ down)))
  /\ (ng = true <-> steep ns nm kz /\ ((Z.even m = true /\ down) \/ (Z.odd m = true /\ up)))
  /\ (ti = true <-> ~ steep ns nm kz /\ ((Z.even m = true /\ down) \/ (Z.odd m = true /\ up))).
Proof.
  intros Ht Hs Hm Hk H0. cbn zeta.
  pose proof (no_tir_steep ns nm kz Hs Hm Hk) as Hn.
  apply z_floor_slab in H0; [|exact Ht].
  unfold film_flags. rewrite H0.
  set (m1 := z_floor th zl z1).
  assert (H1 : in_slab zl (th - zl) z1 m1) by (apply z_floor_slab; [exact Ht|reflexivity]).
  unfold in_slab in H1. set (d := th - zl) in *. assert (0 < d) by (unfold d; lra).
  assert (Hpos : forall n, no_tir_film ns nm kz = n -> (n = true <-> steep ns nm kz))
    by (intros n <-; exact Hn).
  destruct (no_tir_film ns nm kz) eqn:En; specialize (Hpos _ eq_refl).
  - assert (Hst : steep ns nm kz) by (apply Hpos; reflexivity).
    unfold pot_exit, pos_dir.
    destruct (Z.lt_trichotomy m m1) as [H2|[H2|H2]].
    + assert (Hup : zl + (IZR m + 1) * d <= z1).
      { assert (IZR (m + 1) <= IZR m1) by (apply IZR_le; lia). rewrite plus_IZR in H3. nra. }
      assert (~ z1 < zl + IZR m * d) by nra.
      replace (m1 - m =? 0)%Z with false by (symmetry; apply Z.eqb_neq; lia).
      replace (m <? m1)%Z with true by (symmetry; apply Z.ltb_lt; lia).
      rewrite Z.odd_add. cbn [negb andb Z.odd]. rewrite <- Z.negb_odd.
      destruct (Z.odd m); cbn; intuition (try discriminate; auto).
    + subst m1. rewrite <- H2 in *. rewrite Z.sub_diag. cbn.
      assert (~ z1 < zl + IZR m * d) by lra. assert (~ zl + (IZR m + 1) * d <= z1) by lra.
      intuition (try discriminate).
    + assert (Hdn : z1 < zl + IZR m * d).
      { assert (IZR (m1 + 1) <= IZR m) by (apply IZR_le; lia). rewrite plus_IZR in H3. nra. }
      assert (~ zl + (IZR m + 1) * d <= z1) by nra.
      replace (m1 - m =? 0)%Z with false by (symmetry; apply Z.eqb_neq; lia).
      replace (m <? m1)%Z with false by (symmetry; apply Z.ltb_ge; lia).
      rewrite Z.add_0_r. cbn [negb andb]. rewrite <- Z.negb_odd.
      destruct (Z.odd m); cbn; intuition (try discriminate; auto).
  - assert (Hst : ~ steep ns nm kz) by (intro Hx; apply Hpos in Hx; discriminate).
    unfold pot_exit, pos_dir.
    destruct (Z.lt_trichotomy m m1) as [H2|[H2|H2]].
    + assert (Hup : zl + (IZR m + 1) * d <= z1).
      { assert (IZR (m + 1) <= IZR m1) by (apply IZR_le; lia). rewrite plus_IZR in H3. nra. }
      assert (~ z1 < zl + IZR m * d) by nra.
      replace (m1 - m =? 0)%Z with false by (symmetry; apply Z.eqb_neq; lia).
      replace (m <? m1)%Z with true by (symmetry; apply Z.ltb_lt; lia).
      rewrite Z.odd_add. cbn [negb andb Z.odd]. rewrite <- Z.negb_odd.
      destruct (Z.odd m); cbn; intuition (try discriminate; auto).
    + subst m1. rewrite <- H2 in *. rewrite Z.sub_diag. cbn.
      assert (~ z1 < zl + IZR m * d) by lra. assert (~ zl + (IZR m + 1) * d <= z1) by lra.
      intuition (try discriminate).
    + assert (Hdn : z1 < zl + IZR m * d).
      { assert (IZR (m1 + 1) <= IZR m) by (apply IZR_le; lia). rewrite plus_IZR in H3. nra. }
      assert (~ zl + (IZR m + 1) * d <= z1) by nra.
      replace (m1 - m =? 0)%Z with false by (symmetry; apply Z.eqb_neq; lia).
      replace (m <? m1)%Z with false by (symmetry; apply Z.ltb_ge; lia).
      rewrite Z.add_0_r. cbn [negb andb]. rewrite <- Z.negb_odd.
      destruct (Z.odd m); cbn; intuition (try discriminate; auto).
Qed.

Lemma in_slab_exists zl d z : 0 < d -> exists m, in_slab zl d z m.
Proof.
  intros Hd. exists (z_floor (zl + d) zl z). 
  replace d with (zl + d - zl) at 1 by ring. apply z_floor_slab; [lra|reflexivity].
Qed.


Lemma dirs_ok_nth t i : dirs_ok t -> -1 <= vz (nth i (t_dir t) vzero) <= 1.
Proof.
  intros H. destruct (Nat.lt_ge_cases i (length (t_dir t))) as [Hi|Hi].
  - unfold dirs_ok in H; rewrite Forall_forall in H. apply H, nth_In, Hi.
  - rewrite nth_overflow by exact Hi. cbn. lra.
Qed.

(** C22 / C24: each film event. *)
Lemma film_exit_characterised ns nm th zl t ps ng ti i m :
  wf_len t -> dirs_ok t -> zl < th -> 0 < nm <= ns ->
  find_valid_exits ns nm th zl film t = (ps, ng, ti) -> (i < length (t_dir t))%nat ->
  let z0 := vz (nth i (t_pos t) vzero) in
  let z1 := vz (nth (S i) (t_pos t) vzero) in
  let kz := vz (nth i (t_dir t) vzero) in
  let d := th - zl in
  in_slab zl d z0 m ->
  let up := zl + (IZR m + 1) * d <= z1 in
  let down := z1 < zl + IZR m * d in
  (nth i ps false = true
     <-> steep ns nm kz /\ ((Z.even m = true /\ up) \/ (Z.odd m = true /\ down)))
  /\ (nth i ng false = true
     <-> steep ns nm kz /\ ((Z.even m = true /\ down) \/ (Z.odd m = true /\ up)))
  /\ (nth i ti false = true
     <-> ~ steep ns nm kz /\ ((Z.even m = true /\ down) \/ (Z.odd m = true /\ up))).
Proof.
  intros Hw Hd Ht Hm He Hi. cbn zeta. intros Hs.
  cbn [find_valid_exits] in He.
  pose proof (film_exits_nth ns nm th zl t Hw) as H. rewrite He in H.
  destruct H as [_ [_ [_ H]]]. specialize (H i Hi).
  pose proof (film_flags_spec ns nm th zl (vz (nth i (t_pos t) vzero))
    (vz (nth (S i) (t_pos t) vzero)) (vz (nth i (t_dir t) vzero)) m Ht ltac:(lra) Hm
    (dirs_ok_nth t i Hd) Hs) as Hf.
  rewrite <- H in Hf. exact Hf.
Qed.

Lemma film_lengths ns nm th zl t ps ng ti :
  wf_len t -> find_valid_exits ns nm th zl film t = (ps, ng, ti) ->
  length ps = length (t_dir t) /\ length ng = length (t_dir t) /\ length ti = length (t_dir t).
Proof.
  intros Hw He. pose proof (film_exits_nth ns nm th zl t Hw) as H.
  cbn [find_valid_exits] in He. rewrite He in H. tauto.
Qed.

(** No event exits both ways (any indices, any thickness). *)
Lemma film_exclusive ns nm th zl t ps ng ti i :
  wf_len t -> find_valid_exits ns nm th zl film t = (ps, ng, ti) ->
  nth i ng false && nth i ps false = false.
Proof.
  intros Hw He. pose proof (film_exits_nth ns nm th zl t Hw) as H.
  cbn [find_valid_exits] in He. rewrite He in H. destruct H as [L1 [L2 [_ H]]].
  destruct (Nat.lt_ge_cases i (length (t_dir t))) as [Hi|Hi].
  - specialize (H i Hi). unfold film_flags in H. inversion H as [[H1 H2 H3]].
    rewrite H1, H2.
    destruct (pot_exit _ _), (no_tir_film _ _ _), (pos_dir _ _); reflexivity.
  - rewrite !nth_overflow by lia. reflexivity.
Qed.

Lemma sphere_lengths ns nm th zl t ps ng ti :
  wf_len t -> find_valid_exits ns nm th zl sphere t = (ps, ng, ti) ->
  length ps = length (t_dir t) /\ length ng = length (t_dir t) /\ length ti = length (t_dir t).
Proof.
  intros [Hw _] He. cbn in He. unfold find_valid_exits_sphere in He.
  inversion He; subst. rewrite !map_length, tl_length, Hw. lia.
Qed.

Lemma sphere_exclusive ns nm th zl t ps ng ti i :
  find_valid_exits ns nm th zl sphere t = (ps, ng, ti) ->
  nth i ng false && nth i ps false = false.
Proof.
  intros He. cbn in He. unfold find_valid_exits_sphere in He.
  set (pot := map (outside (th / 2)) (tl (t_pos t))) in *.
  destruct (exit_kz _ _ _ _ _) as [z|]; inversion He; subst; clear He.
  - destruct (Nat.lt_ge_cases i (length pot)) as [Hi|Hi].
    + rewrite !(nth_map_in _ pot i false) by exact Hi.
      destruct (nth i pot false); [|reflexivity]. cbn.
      destruct (Rltb z 0) eqn:E1; [|reflexivity]. cbn.
      apply Rltb_true in E1. apply Rltb_false. lra.
    + rewrite !nth_overflow by (rewrite map_length; lia). reflexivity.
  -
    destruct (Nat.lt_ge_cases i (length pot)) as [Hi|Hi].
    + rewrite !(nth_map_in _ pot i false) by exact Hi.
      destruct (nth i pot false); reflexivity.
    + rewrite !nth_overflow by (rewrite map_length; lia). reflexivity.
Qed.

Lemma exits_lengths ns nm th zl b t ps ng ti :
  wf_len t -> find_valid_exits ns nm th zl b t = (ps, ng, ti) ->
  length ps = length (t_dir t) /\ length ng = length (t_dir t) /\ length ti = length (t_dir t).
Proof. destruct b; [apply film_lengths|apply sphere_lengths]. Qed.
Lemma exits_exclusive ns nm th zl b t ps ng ti i :
  wf_len t -> find_valid_exits ns nm th zl b t = (ps, ng, ti) ->
  nth i ng false && nth i ps false = false.
Proof. intros Hw. destruct b; [now apply film_exclusive|now apply sphere_exclusive]. Qed.


Lemma trajectory_outcome ns nm th zl b t ps ng ti :
  wf_len t -> find_valid_exits ns nm th zl b t = (ps, ng, ti) ->
  exists r tt s,
    event_indices ns nm th zl b t = (r, tt, s, argmax_padded ti)
    /\ one_outcome (length (t_dir t)) ps ng r tt s.
Proof.
  intros Hw He. destruct (exits_lengths _ _ _ _ _ _ _ _ _ Hw He) as [L1 [L2 _]].
  unfold event_indices. rewrite He.
  destruct (event_indices_cases ng ps ti) as [r [tt [s [H1 H2]]]].
  - lia.
  - destruct Hw as [_ [_ H]]. lia.
  - intros i. eapply exits_exclusive; eauto.
  - exists r, tt, s. split; [exact H1|]. unfold one_outcome. rewrite <- L2. exact H2.
Qed.

(** C24 *)
Lemma first_exit_physical ns nm th t i :
  wf_len t -> dirs_ok t -> 0 < th -> 0 < nm <= ns -> (i < length (t_dir t))%nat ->
  (forall j, (j <= i)%nat -> 0 <= vz (nth j (t_pos t) vzero) < th) ->
  steep ns nm (vz (nth i (t_dir t) vzero)) ->
  let z1 := vz (nth (S i) (t_pos t) vzero) in
  (z1 < 0 -> exists ti, event_indices ns nm th 0 film t = (S i, 0%nat, 0%nat, ti))
  /\ (th <= z1 -> exists ti, event_indices ns nm th 0 film t = (0%nat, S i, 0%nat, ti)).
Proof.
  intros Hw Hd Ht Hm Hi Hin Hst. cbn zeta.
  destruct (find_valid_exits ns nm th 0 film t) as [[ps ng] ti] eqn:He.
  destruct (trajectory_outcome _ _ _ _ _ _ _ _ _ Hw He) as [r [tt [s [Hev Ho]]]].
  destruct (film_lengths _ _ _ _ _ _ _ _ Hw He) as [L1 [L2 _]].
  assert (Hbefore : forall j, (j < i)%nat -> nth j (map2 orb ng ps) false = false).
  { intros j Hj. rewrite nth_map2_bool by (auto; lia).
    pose proof (film_exit_characterised ns nm th 0 t ps ng ti j 0 Hw Hd Ht Hm He ltac:(lia)) as H.
    cbn zeta in H. destruct H as [Hp [Hn _]].
    { unfold in_slab. specialize (Hin j ltac:(lia)). lra. }
    specialize (Hin (S j) ltac:(lia)).
    destruct (nth j ng false).
    - destruct Hn as [Hn _]. destruct (Hn eq_refl) as [_ [[_ H]|[H _]]]; [lra|discriminate].
    - destruct (nth j ps false); [|reflexivity].
      destruct Hp as [Hp _]. destruct (Hp eq_refl) as [_ [[_ H]|[H _]]]; [lra|discriminate]. }
  pose proof (film_exit_characterised ns nm th 0 t ps ng ti i 0 Hw Hd Ht Hm He Hi) as H.
  cbn zeta in H. destruct H as [Hp [Hn _]].
  { unfold in_slab. specialize (Hin i ltac:(lia)). lra. }
  assert (Hex := exits_exclusive _ _ _ _ _ _ _ _ _ i Hw He).
  assert (Huniq : forall k, first_true (map2 orb ng ps) k ->
            nth i (map2 orb ng ps) false = true -> k = i).
  { intros k Hk Ht'. apply (first_true_unique (map2 orb ng ps)); [exact Hk|].
    split; [exact Ht'|exact Hbefore]. }
  split; intros Hz.
  - assert (Hng : nth i ng false = true) by (apply Hn; split; [exact Hst|left; split; [reflexivity|lra]]).
    assert (Hor : nth i (map2 orb ng ps) false = true)
      by (rewrite nth_map2_bool by (auto; lia); now rewrite Hng).
    destruct Ho as [[N _]|[[k [Hk [_ [_ [-> [-> ->]]]]]]|[k [Hk [Hkp _]]]]].
    + rewrite N in Hng; discriminate.
    + rewrite (Huniq k Hk Hor) in *. eexists; exact Hev.
    + rewrite (Huniq k Hk Hor) in *. rewrite Hng, Hkp in Hex. discriminate.
  - assert (Hps : nth i ps false = true) by (apply Hp; split; [exact Hst|left; split; [reflexivity|lra]]).
    assert (Hor : nth i (map2 orb ng ps) false = true)
      by (rewrite nth_map2_bool by (auto; lia); rewrite Hps; apply orb_true_r).
    destruct Ho as [[_ [N _]]|[[k [Hk [Hkn _]]]|[k [Hk [_ [_ [-> [-> ->]]]]]]]].
    + rewrite N in Hps; discriminate.
    + rewrite (Huniq k Hk Hor) in *. rewrite Hps, Hkn in Hex. discriminate.
    + rewrite (Huniq k Hk Hor) in *. eexists; exact Hev.
Qed.


Lemma map_shift_floor th zl s l :
  map (fun p => z_floor (th + s) (zl + s) (vz p)) (map (fun p => (vx p, vy p, vz p + s)) l)
  = map (fun p => z_floor th zl (vz p)) l.
Proof.
  rewrite map_map. apply map_ext. intros [[x y] z]. unfold z_floor. cbn.
  replace (z + s - (zl + s)) with (z - zl) by ring.
  replace (th + s - (zl + s)) with (th - zl) by ring. reflexivity.
Qed.

Lemma shift_both ns nm th zl s t :
  event_indices ns nm (th + s) (zl + s) film (shift_z s t) = event_indices ns nm th zl film t.
Proof.
  unfold event_indices, find_valid_exits, find_valid_exits_film, shift_z. cbn [t_pos t_dir].
  rewrite map_shift_floor. reflexivity.
Qed.

Lemma Int_part_IZR_between x m : IZR m <= x -> x < IZR m + 1 -> floorZ x = m.
Proof. intros; unfold floorZ; apply Int_part_unique; lra. Qed.

Lemma z_low_refuted_l :
  exists ns nm th s t,
    0 < nm <= ns /\ 0 < th /\ wf_len t /\ dirs_ok t
    /\ event_indices ns nm th s film (shift_z s t) <> event_indices ns nm th 0 film t.
Proof.
  exists 1, 1, 1, (1 / 2),
    (mk_traj [(0, 0, 0); (0, 0, 9 / 10)] [(0, 0, 1)] [1]).
  split; [lra|]. split; [lra|].
  split; [unfold wf_len; cbn; lia|].
  split; [repeat (apply Forall_cons || apply Forall_nil); cbn; lra|].
  assert (E : forall z0 z1 th zl f0 f1,
     z_floor th zl z0 = f0 -> z_floor th zl z1 = f1 ->
     event_indices 1 1 th zl film (mk_traj [(0, 0, z0); (0, 0, z1)] [(0, 0, 1)] [1])
     = find_event_indices [pot_exit f0 f1 && no_tir_film 1 1 1 && negb (pos_dir f0 f1)]
                          [pot_exit f0 f1 && no_tir_film 1 1 1 && pos_dir f0 f1]
                          [pot_exit f0 f1 && negb (no_tir_film 1 1 1) && negb (pos_dir f0 f1)]).
  { intros z0 z1 th zl f0 f1 <- <-. reflexivity. }
  assert (Hnt : no_tir_film 1 1 1 = true).
  { apply no_tir_steep; try lra. unfold steep. replace (1 - 1 ^ 2) with 0 by ring. rewrite sqrt_0; lra. }
  unfold shift_z. cbn [t_pos t_dir t_w map vx vy vz].
  rewrite (E _ _ 1 (1 / 2) 0%Z 1%Z).
  2: { unfold z_floor. apply Int_part_IZR_between; lra. }
  2: { unfold z_floor. apply Int_part_IZR_between; lra. }
  rewrite (E 0 (9 / 10) 1 0 0%Z 0%Z).
  2: { unfold z_floor. apply Int_part_IZR_between; lra. }
  2: { unfold z_floor. apply Int_part_IZR_between; lra. }
  rewrite Hnt. cbn. discriminate.
Qed.

(** C26 *)
Lemma dense_no_exit ns nm th zl t :
  0 < ns -> ns < nm -> wf_len t ->
  exists ti, event_indices ns nm th zl film t = (0%nat, 0%nat, length (t_dir t), ti).
Proof.
  intros Hs Hm Hw.
  destruct (find_valid_exits ns nm th zl film t) as [[ps ng] ti] eqn:He.
  pose proof (film_exits_nth ns nm th zl t Hw) as H.
  assert (He' := He). cbn [find_valid_exits] in He'. rewrite He' in H.
  destruct H as [L1 [L2 [_ H]]].
  destruct (trajectory_outcome _ _ _ _ _ _ _ _ _ Hw He) as [r [tt [s [Hev Ho]]]].
  assert (Hf : forall i, nth i ng false = false /\ nth i ps false = false).
  { intros i. destruct (Nat.lt_ge_cases i (length (t_dir t))) as [Hi|Hi].
    - specialize (H i Hi). unfold film_flags in H. rewrite (no_tir_dense ns nm _ Hs Hm) in H.
      pose proof (f_equal (fun x => fst (fst x)) H) as E1.
      pose proof (f_equal (fun x => snd (fst x)) H) as E2. cbn [fst snd] in E1, E2.
      rewrite E1, E2, andb_false_r. auto.
    - rewrite !nth_overflow by lia. auto. }
  destruct Ho as [[_ [_ [-> [-> ->]]]]|[[k [_ [Hk _]]]|[k [_ [Hk _]]]]].
  - eexists; exact Hev.
  - rewrite (proj1 (Hf k)) in Hk; discriminate.
  - rewrite (proj2 (Hf k)) in Hk; discriminate.
Qed.
