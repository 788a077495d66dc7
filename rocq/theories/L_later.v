(** Lemmas for C165: what more events change. *)
From Coq Require Import Lra Lia Psatz Reals List FunctionalExtensionality.
From Verif Require Import Num Spec Spec_detector Spec_meta M_init M_montecarlo M_detector L_num L_exits L_slots L_outcomes L_sphere_exits L_meta L_meta2 L_meta3 L_meta4 Spec_mean Spec_direct Spec_estimate Spec_later M_simulation L_montecarlo L_bulk2 L_pool L_local L_mean L_estimate L_direct L_fields Properties_pool.
Import ListNotations.
Open Scope R_scope.

Section Later.
Variables (t t' : traj).
Hypothesis Hw : wf_len t.
Hypothesis Hc : continues t t'.

Lemma same_flags ns nm th zl b ps ng ti ps' ng' ti' :
  find_valid_exits ns nm th zl b t = (ps, ng, ti) -> find_valid_exits ns nm th zl b t' = (ps', ng', ti') ->
  forall i, (i < length (t_dir t))%nat -> nth i ps' false = nth i ps false /\ nth i ng' false = nth i ng false.
Proof.
  intros E E' i Hi.
  destruct (nth i ps false || nth i ng false)%bool eqn:O; [exact (continues_flags t t' Hw Hc ns nm th zl b ps ng ti ps' ng' ti' i E E' Hi O i Hi)|].
  destruct (nth i ps' false || nth i ng' false)%bool eqn:O'.
  2:{ apply Bool.orb_false_elim in O. apply Bool.orb_false_elim in O'. destruct O as [-> ->], O' as [-> ->]. auto. }
  pose proof (continues_len t t' Hc) as Hl. pose proof (continues_wf t t' Hw Hc) as Hw'. destruct b; cbn [find_valid_exits] in E, E'.
  - pose proof (film_exits_nth ns nm th zl t Hw) as F. rewrite E in F. destruct F as (_ & _ & _ & F).
    pose proof (film_exits_nth ns nm th zl t' Hw') as F'. rewrite E' in F'. destruct F' as (_ & _ & _ & F').
    specialize (F i Hi). specialize (F' i ltac:(lia)). rewrite !(continues_pos t t' Hw Hc), (continues_dir t t' Hc) in F' by lia.
    rewrite <- F in F'. inversion F'. auto.
  - unfold find_valid_exits_sphere in E, E'.
    assert (Ep : exists m, map (outside (th / 2)) (tl (t_pos t')) = map (outside (th / 2)) (tl (t_pos t)) ++ m).
    { destruct Hc as (qs & ds & ws & -> & _). cbn [t_pos]. pose proof (proj1 Hw) as L.
      destruct (t_pos t) as [|p l]; [discriminate|]. cbn [tl app]. rewrite map_app. eexists. reflexivity. }
    destruct Ep as [m Em]. rewrite Em in E'.
    set (pot := map (outside (th / 2)) (tl (t_pos t))) in *.
    assert (Lp : length pot = length (t_dir t)) by (unfold pot; rewrite map_length, tl_length; destruct Hw; lia).
    assert (Hn : forall f : bool -> bool, nth i (map f (pot ++ m)) false = nth i (map f pot) false).
    { intros f. rewrite map_app. apply app_nth1. rewrite map_length. lia. }
    destruct (argmax_padded_spec pot) as [[_ N]|[j [Ea [Fj Lj]]]].
    + assert (Hz : forall f : bool -> bool, f false = false -> nth i (map f (pot ++ m)) false = false /\ nth i (map f pot) false = false).
      { intros f Hf. rewrite Hn, (nth_map_in f pot i false) by lia. rewrite (N i). auto. }
      inversion E; subst. inversion E'; subst.
      match goal with |- nth i (map ?f _) _ = nth i (map ?g _) _ /\ nth i (map ?h _) _ = nth i (map ?k _) _ =>
        rewrite (proj1 (Hz f eq_refl)), (proj2 (Hz g eq_refl)), (proj1 (Hz h eq_refl)), (proj2 (Hz k eq_refl)) end. auto.
    + rewrite (argmax_same pot m j Fj Lj), Ea, (continues_exit_kz t t' Hw Hc) in E' by lia. rewrite Ea in E.
      inversion E; subst. inversion E'; subst. rewrite !Hn. auto.
Qed.

(** A trajectory that is still inside leaves later, or not at all. *)
Lemma later_events ns nm th zl b :
  let ev := event_indices ns nm th zl b t in let ev' := event_indices ns nm th zl b t' in
  (i_refl ev + i_trans ev = 0)%nat ->
  i_stuck ev = length (t_dir t)
  /\ exists j, (length (t_dir t) <= j < length (t_dir t'))%nat /\
      ((i_refl ev' = S j /\ i_trans ev' = 0%nat /\ i_stuck ev' = 0%nat)
       \/ (i_refl ev' = 0%nat /\ i_trans ev' = S j /\ i_stuck ev' = 0%nat))
     \/ (i_refl ev' = 0%nat /\ i_trans ev' = 0%nat /\ i_stuck ev' = length (t_dir t')).
Proof.
  intros ev ev' H0. pose proof (continues_wf t t' Hw Hc) as Hw'. pose proof (continues_len t t' Hc) as Hl.
  destruct (find_valid_exits ns nm th zl b t) as [[ps ng] ti] eqn:E.
  destruct (find_valid_exits ns nm th zl b t') as [[ps' ng'] ti'] eqn:E'.
  destruct (exits_lengths _ _ _ _ _ _ _ _ _ Hw E) as (L1 & L2 & _).
  destruct (exits_lengths _ _ _ _ _ _ _ _ _ Hw' E') as (L1' & L2' & _).
  destruct (trajectory_outcome _ _ _ _ _ _ _ _ _ Hw E) as (r & tt & s & Ev & O).
  destruct (trajectory_outcome _ _ _ _ _ _ _ _ _ Hw' E') as (r' & tt' & s' & Ev' & O').
  unfold ev, ev' in *. rewrite Ev in *. rewrite Ev'. cbn [i_refl i_trans i_stuck] in *. clear Ev Ev' ev ev'.
  destruct O as [(N1 & N2 & -> & -> & ->)|[(k & _ & _ & _ & -> & -> & ->)|(k & _ & _ & _ & -> & -> & ->)]]; [|lia|lia].
  split; [reflexivity|].
  assert (G : forall k, nth k ps' false = true \/ nth k ng' false = true -> (length (t_dir t) <= k)%nat).
  { intros k Hk. destruct (Nat.lt_ge_cases k (length (t_dir t))) as [L|L]; [exfalso|exact L].
    destruct (same_flags _ _ _ _ _ _ _ _ _ _ _ E E' k L) as [A B]. rewrite (N1 k) in B. rewrite (N2 k) in A. destruct Hk; congruence. }
  destruct O' as [(_ & _ & -> & -> & ->)|[(k & _ & F & Lk & -> & -> & ->)|(k & _ & F & Lk & -> & -> & ->)]].
  - exists 0%nat. right. auto.
  - exists k. left. split; [|left; auto]. split; [apply G; auto|exact Lk].
  - exists k. left. split; [|right; auto]. split; [apply G; auto|exact Lk].
Qed.

Lemma later_entry P : let a := film_view P t in let a' := film_view P t' in
  v_first a' = v_first a /\ v_kz0 a' = v_kz0 a /\ v_ae a' = v_ae a.
Proof.
  pose proof (proj2 (proj2 Hw)) as Hd. pose proof (continues_len t t' Hc) as Hlen.
  unfold film_view. cbn [v_first v_kz0 v_ae]. split; [|split].
  - unfold film_exit_angle. cbn [select_col]. rewrite <- !vz_nth, (continues_dir t t' Hc) by lia. reflexivity.
  - rewrite (continues_dir t t' Hc) by lia. reflexivity.
  - destruct (p_boundary P); [reflexivity|]. unfold sphere_entry_angle. cbn [vselect].
    rewrite (continues_dir t t' Hc) by lia. pose proof (proj1 Hw). pose proof (proj1 (continues_wf t t' Hw Hc)).
    rewrite !nth_centred by lia. rewrite (continues_pos t t' Hw Hc) by lia. reflexivity.
Qed.
End Later.

(** The views of a trajectory and of a longer one. *)
Definition follows (a a' : view) : Prop :=
  a' = a \/ (v_r a = 0%nat /\ v_t a = 0%nat /\ v_wr a = 0 /\ v_wt a = 0 /\ v_wr a' + v_wt a' + v_ws a' <= v_ws a
             /\ v_first a' = v_first a /\ v_kz0 a' = v_kz0 a /\ v_ae a' = v_ae a).
Lemma follows_view P t t' : wf_len t -> continues t t' -> 
  (forall i j, (i <= j < length (t_w t'))%nat -> 0 <= nth j (t_w t') 0 <= nth i (t_w t') 0) ->
  follows (film_view P t) (film_view P t').
Proof.
  intros Hw Hc Hm.
  pose proof (continues_view t t' Hw Hc P) as CV. cbv zeta in CV.
  pose proof (later_events t t' Hw Hc (choose_n_tir P) (p_nmedium P) (p_thickness P) (p_zlow P) (p_boundary P)) as LE. cbv zeta in LE.
  destruct (Nat.eq_dec (i_refl (event_indices (choose_n_tir P) (p_nmedium P) (p_thickness P) (p_zlow P) (p_boundary P) t)
     + i_trans (event_indices (choose_n_tir P) (p_nmedium P) (p_thickness P) (p_zlow P) (p_boundary P) t)) 0) as [E0|E0].
  - right. destruct (LE E0) as (Es & j & Hj). clear LE CV. destruct (later_entry t t' Hw Hc P) as (A1 & A2 & A3).
    split; [change (i_refl (event_indices (choose_n_tir P) (p_nmedium P) (p_thickness P) (p_zlow P) (p_boundary P) t) = 0%nat); lia|].
    split; [change (i_trans (event_indices (choose_n_tir P) (p_nmedium P) (p_thickness P) (p_zlow P) (p_boundary P) t) = 0%nat); lia|].
    split; [|split; [|split; [|split; [exact A1|split; [exact A2|exact A3]]]]]; clear A1 A2 A3; unfold film_view; cbn [v_wr v_wt v_ws].
    + replace (i_refl _) with 0%nat by lia. reflexivity.
    + replace (i_trans (event_indices _ _ _ _ _ t)) with 0%nat by lia. reflexivity.
    + rewrite Es. pose proof (proj2 (proj2 Hw)) as Hd. pose proof (proj1 (proj2 Hw)) as Lw. pose proof (proj1 (proj2 (continues_wf t t' Hw Hc))) as Lw'.
      pose proof (continues_len t t' Hc) as Hl.
      destruct (length (t_dir t)) as [|n] eqn:En; [lia|]. cbn [select_col].
      rewrite <- (continues_w t t' Hw Hc n) by lia.
      destruct Hj as [(Lj & [(-> & -> & ->)|(-> & -> & ->)])|(-> & -> & ->)]; cbn [select_col].
      * specialize (Hm n j ltac:(lia)). lra.
      * specialize (Hm n j ltac:(lia)). lra.
      * destruct (length (t_dir t')) as [|n'] eqn:En'; [lia|]. cbn [select_col]. specialize (Hm n n' ltac:(lia)). lra.
  - left. apply CV. lia.
Qed.

(** ** Trajectories made with more events *)
Lemma vcumsum_app : forall l m acc, exists q, vcumsum_from acc (l ++ m) = vcumsum_from acc l ++ q /\ length q = length m.
Proof.
  induction l as [|v l IH]; intros m acc.
  - exists (vcumsum_from acc m). split; [reflexivity|]. revert acc. induction m as [|v m IHm]; intros acc; cbn; [reflexivity|]. now rewrite IHm.
  - cbn [app vcumsum_from]. destruct (IH m (vadd acc v)) as (q & E & L). exists q. rewrite E. auto.
Qed.
Lemma cumsum_app : forall l m acc, exists q, cumsum_from acc (l ++ m) = cumsum_from acc l ++ q /\ length q = length m.
Proof.
  induction l as [|v l IH]; intros m acc.
  - exists (cumsum_from acc m). split; [reflexivity|]. apply cumsum_from_length.
  - cbn [app cumsum_from]. destruct (IH m (acc + v)) as (q & E & L). exists q. rewrite E. auto.
Qed.
Lemma map2_len {A B D} (f : A -> B -> D) : forall l m, length l = length m -> length (map2 f l m) = length m.
Proof. induction l as [|a l IH]; intros [|b m] H; try discriminate; [reflexivity|]. cbn. rewrite IH; [reflexivity|]. now injection H. Qed.
Lemma made_continues nev k mu mua D p d i : continues (made nev mu mua D p d i) (made (nev + k) mu mua D p d i).
Proof.
  unfold made, move. rewrite seq_app, map_app. change (0 + nev)%nat with nev.
  assert (Es : steps_of (nev + k) mu D i = steps_of nev mu D i ++ map (fun n => step_of mu (d_u D n i)) (seq nev k)).
  { unfold steps_of. rewrite seq_app, map_app. reflexivity. }
  assert (L1 : length (steps_of nev mu D i) = nev) by (unfold steps_of; now rewrite map_length, seq_length).
  rewrite Es, map2_app by (rewrite L1; now rewrite map_length, seq_length).
  destruct (vcumsum_app (p :: map2 (fun s k => vscale s k) (steps_of nev mu D i) (map (scat_dir d (d_ang D i)) (seq 0 nev)))
    (map2 (fun s k => vscale s k) (map (fun n => step_of mu (d_u D n i)) (seq nev k)) (map (scat_dir d (d_ang D i)) (seq nev k))) vzero) as (q & Eq & Lq).
  change ((?a :: ?b) ++ ?c) with (a :: (b ++ c)) in Eq. rewrite Eq. clear Eq.
  unfold absorb, cumsum. destruct (cumsum_app (steps_of nev mu D i) (map (fun n => step_of mu (d_u D n i)) (seq nev k)) 0) as (w & Ew & Lw). rewrite Ew.
  rewrite repeat_app, map2_app by (rewrite cumsum_from_length, L1; now rewrite repeat_length).
  do 3 eexists. split; [reflexivity|]. rewrite Lq.
  rewrite map_length, seq_length in Lw.
  rewrite !map2_len; rewrite ?map_length, ?seq_length, ?repeat_length; auto.
Qed.
Lemma made_falls nev mu mua D p d i : 0 < mu -> 0 <= mua -> (forall n j, 0 <= d_u D n j < 1) ->
  forall a b, (a <= b < length (t_w (made nev mu mua D p d i)))%nat ->
  0 <= nth b (t_w (made nev mu mua D p d i)) 0 <= nth a (t_w (made nev mu mua D p d i)) 0.
Proof.
  intros Hmu Ha Hu. unfold made. cbn [t_w]. set (s := steps_of nev mu D i).
  assert (Hs : forall x, In x s -> 0 <= x).
  { intros x Hx. apply in_map_iff in Hx. destruct Hx as (n & <- & _). apply step_nonneg; auto. }
  assert (L1 : length s = nev) by (unfold s, steps_of; now rewrite map_length, seq_length).
  assert (Lw : length (absorb mua (repeat 1 nev) s) = nev).
  { unfold absorb, cumsum. rewrite map2_len; rewrite cumsum_from_length, ?repeat_length; auto. }
  intros a b [Hab Hb]. rewrite Lw in Hb.
  assert (NR : forall j, (j < nev)%nat -> nth j (repeat 1 nev) 0 = 1).
  { intros j Hj. rewrite (nth_indep _ 0 1) by (rewrite repeat_length; exact Hj). apply nth_repeat. }
  assert (N : forall j, (j < nev)%nat -> nth j (absorb mua (repeat 1 nev) s) 0 = exp (- (mua * total (firstn (S j) s)))).
  { intros j Hj. unfold absorb, cumsum. rewrite (L_rough.nth_map2 _ _ _ _ 0 0 0) by (rewrite ?repeat_length, ?cumsum_from_length; lia).
    rewrite cumsum_from_nth by lia. rewrite NR by lia. rewrite Rplus_0_l. ring. }
  rewrite !N by lia. split; [left; apply exp_pos|].
  assert (T : total (firstn (S a) s) <= total (firstn (S b) s)).
  { assert (G : forall l a b, (forall x, In x l -> 0 <= x) -> (a <= b)%nat -> total (firstn a l) <= total (firstn b l)).
    { clear. induction l as [|x l IH]; intros a b H L; [rewrite !firstn_nil; lra|]. destruct a as [|a].
      - cbn [firstn]. change (total nil) with 0. apply L_num.total_nonneg. apply Forall_forall. intros y Hy. apply H. exact (L_fields.in_firstn _ _ _ Hy).
      - destruct b as [|b]; [lia|]. cbn [firstn total]. specialize (IH a b ltac:(intros; apply H; now right) ltac:(lia)). lra. }
    apply G; [exact Hs|lia]. }
  destruct (Rle_lt_or_eq_dec (- (mua * total (firstn (S b) s))) (- (mua * total (firstn (S a) s)))) as [L|E]; [nra| |].
  - left. now apply exp_increasing.
  - rewrite E. right. reflexivity.
Qed.
Lemma made_follows nev nev' mu D P p d i : (0 < nev <= nev')%nat -> 0 < mu -> 0 <= p_muabs P -> (forall n j, 0 <= d_u D n j < 1) ->
  follows (film_view P (made nev mu (p_muabs P) D p d i)) (film_view P (made nev' mu (p_muabs P) D p d i)).
Proof.
  intros Hn Hmu Ha Hu. replace nev' with (nev + (nev' - nev))%nat by lia. apply follows_view.
  - destruct (made_ok nev (S i) mu (p_muabs P) D (fun _ => p) (fun _ => d) i ltac:(lia) Hmu Ha Hu ltac:(lia)) as [(A & _) _]. exact A.
  - apply made_continues.
  - now apply made_falls.
Qed.

(** ** What one trajectory adds *)
Definition still (a : view) : R := if Nat.eqb (v_r a + v_t a) 0 then 1 else 0.
Section Adds.
Variables (P : params).
Hypothesis Hm : 0 < p_nmedium P.
Hypothesis Ht : 0 < choose_n_tir P.
Hypothesis Hf : forall m, p_nfront P = Some m -> 0 < m.
Hypothesis Hb : forall m, p_nback P = Some m -> 0 < m.
Lemma follow_terms v v' a a' : bad_angle P false v = false -> bad_angle P false v' = false -> In a v -> In a' v' -> wview a -> wview a' -> follows a a' ->
  exists x y p q z, 0 <= x /\ 0 <= y /\ 0 <= p /\ 0 <= q /\ 0 <= z /\ x + y + p + q + z <= still a /\ 0 <= still a' <= still a
   /\ c_rp P false a' = c_rp P false a + x /\ c_tp P false a' = c_tp P false a + y /\ c_rf P false a' = c_rf P false a + p /\ c_tf P false a' = c_tf P false a + q
   /\ c_ab P false a' = c_ab P false a + z /\ c_sw P false a' = c_sw P false a - (x + y + p + q + z) /\ c_di P false a' = c_di P false a.
Proof.
  intros B B' Ia Ia' W W' F.
  assert (S01 : forall a, 0 <= still a <= 1) by (intros b; unfold still; destruct (Nat.eqb _ _); lra).
  destruct F as [->|(R0 & T0 & W1 & W2 & Hs & E1 & E2 & E3)].
  - exists 0, 0, 0, 0, 0. specialize (S01 a). repeat split; lra.
  - destruct (c_range P false v' Hm Ht Hf Hb B' a' Ia' W') as (Q1 & Q2 & Q3 & Q4 & Q5 & Q6 & Q7).
    pose proof (inc_range P false v Hm Ht Hf B a Ia W) as Hi.
    assert (Ei : v_inc P false a' = v_inc P false a) by (unfold v_inc, v_in; rewrite E1, E3; reflexivity).
    assert (Ed : c_di P false a' = c_di P false a) by (unfold c_di, v_dia; rewrite Ei, E2, E3; reflexivity).
    assert (Z1 : c_rw P false a = 0) by (unfold c_rw; rewrite W1; ring).
    assert (Z2 : c_tw P false a = 0) by (unfold c_tw; rewrite W2; ring).
    assert (Esum : c_rw P false a' + c_tw P false a' + c_sw P false a' <= c_sw P false a).
    { unfold c_rw, c_tw, c_sw. rewrite Ei. destruct Hi as [Hi _]. rewrite <- !Rmult_plus_distr_l. now apply Rmult_le_compat_l. }
    assert (Esw : 0 <= c_sw P false a <= 1).
    { unfold c_sw. destruct W as (V1 & V2 & V3 & V4 & _). split; [apply Rmult_le_pos; lra|nra]. }
    assert (Est : still a = 1) by (unfold still; rewrite R0, T0; reflexivity).
    exists (c_rp P false a'), (c_tp P false a'), (c_rf P false a'), (c_tf P false a'), (c_ab P false a' - c_ab P false a).
    assert (Eab : c_ab P false a' - c_ab P false a = c_sw P false a - c_sw P false a' - c_rw P false a' - c_tw P false a').
    { unfold c_ab. rewrite Ei, Z1, Z2. ring. }
    assert (P1 : c_rp P false a = 0) by (unfold c_rp; rewrite Z1; ring). assert (P2 : c_tp P false a = 0) by (unfold c_tp; rewrite Z2; ring).
    assert (P3 : c_rf P false a = 0) by (unfold c_rf; rewrite P1, Z1; ring). assert (P4 : c_tf P false a = 0) by (unfold c_tf; rewrite P2, Z2; ring).
    assert (G1 : c_rf P false a' = c_rw P false a' - c_rp P false a') by reflexivity.
    assert (G2 : c_tf P false a' = c_tw P false a' - c_tp P false a') by reflexivity.
    specialize (S01 a'). rewrite Est. repeat split; lra.
Qed.
Lemma follow_sums (A A' : nat -> view) v v' l : bad_angle P false v = false -> bad_angle P false v' = false ->
  (forall i, In i l -> In (A i) v /\ In (A' i) v' /\ wview (A i) /\ wview (A' i) /\ follows (A i) (A' i)) ->
  let S f (B : nat -> view) := total (map (fun i => f (B i)) l) in
  exists x y p q z, 0 <= x /\ 0 <= y /\ 0 <= p /\ 0 <= q /\ 0 <= z /\ x + y + p + q + z <= S still A /\ 0 <= S still A' <= S still A
   /\ S (c_rp P false) A' = S (c_rp P false) A + x /\ S (c_tp P false) A' = S (c_tp P false) A + y
   /\ S (c_rf P false) A' = S (c_rf P false) A + p /\ S (c_tf P false) A' = S (c_tf P false) A + q
   /\ S (c_ab P false) A' = S (c_ab P false) A + z /\ S (c_sw P false) A' = S (c_sw P false) A - (x + y + p + q + z)
   /\ S (c_di P false) A' = S (c_di P false) A.
Proof.
  intros B B'. induction l as [|i l IH]; intros H; cbn zeta.
  - exists 0, 0, 0, 0, 0. cbn [map total]. repeat split; lra.
  - destruct (H i (or_introl eq_refl)) as (H1 & H2 & H3 & H4 & H5).
    destruct (follow_terms v v' (A i) (A' i) B B' H1 H2 H3 H4 H5) as (x & y & p & q & z & X1 & X2 & X3 & X4 & X5 & X6 & X7 & Y1 & Y2 & Y3 & Y4 & Y5 & Y6 & Y7).
    destruct (IH ltac:(intros j Hj; apply H; now right)) as (x' & y' & p' & q' & z' & U1 & U2 & U3 & U4 & U5 & U6 & U7 & V1 & V2 & V3 & V4 & V5 & V6 & V7).
    clear IH H. cbn zeta in *. cbn [map total]. exists (x + x'), (y + y'), (p + p'), (q + q'), (z + z'). repeat split; lra.
Qed.
End Adds.

(** The split of a film's reflectance after some more light is known. *)
Lemma more_known rp tp sw di br bt ab x y p q z k : 0 <= rp -> 0 <= tp -> 0 <= br -> 0 <= bt -> 0 <= ab ->
  0 <= x -> 0 <= y -> 0 <= p -> 0 <= q -> 0 <= z -> k = ab + rp + tp -> 0 < rp + tp ->
  let S := x + y + p + q + z in
  Rabs (((rp + x) + (sw - S) * (1 / 2) + di + ((br + p) * ((rp + x) / (k + (x + y + z))) + (bt + q) * ((tp + y) / (k + (x + y + z)))))
        - (rp + sw * (1 / 2) + di + (br * (rp / k) + bt * (tp / k)))) <= S * (1 / 2 + (br + bt) / (rp + tp)).
Proof.
  intros Hrp Htp Hbr Hbt Hab Hx Hy Hp Hq Hz Hk H0 S. assert (Kp : 0 < k) by lra. set (e := x + y + z). assert (He : 0 <= e) by (unfold e; lra).
  assert (K' : 0 < k + e) by lra.
  set (r := rp / k). set (t := tp / k). set (r' := (rp + x) / (k + e)). set (t' := (tp + y) / (k + e)).
  assert (Er : rp = r * k) by (unfold r; field; lra). assert (Et : tp = t * k) by (unfold t; field; lra).
  assert (Er' : rp + x = r' * (k + e)) by (unfold r'; field; lra). assert (Et' : tp + y = t' * (k + e)) by (unfold t'; field; lra).
  assert (B1 : 0 <= r <= 1) by (split; [apply Rmult_le_pos; [lra|left; now apply Rinv_0_lt_compat]|apply Rcomplements.Rle_div_l; lra]).
  assert (B2 : 0 <= t <= 1) by (split; [apply Rmult_le_pos; [lra|left; now apply Rinv_0_lt_compat]|apply Rcomplements.Rle_div_l; lra]).
  assert (B1' : 0 <= r' <= 1) by (split; [apply Rmult_le_pos; [lra|left; now apply Rinv_0_lt_compat]|apply Rcomplements.Rle_div_l; unfold e; lra]).
  assert (B2' : 0 <= t' <= 1) by (split; [apply Rmult_le_pos; [lra|left; now apply Rinv_0_lt_compat]|apply Rcomplements.Rle_div_l; unfold e; lra]).
  set (w := S / (rp + tp)). assert (Ew : S = w * (rp + tp)) by (unfold w; field; lra).
  assert (S0 : 0 <= S) by (unfold S; lra).
  assert (W0 : 0 <= w) by (apply Rmult_le_pos; [exact S0|left; now apply Rinv_0_lt_compat]).
  assert (Sw : S <= w * k) by (rewrite Ew; apply Rmult_le_compat_l; lra).
  assert (D1 : - w <= r' - r <= w).
  { assert (Q : (r' - r) * (k + e) = x - r * e) by lra.
    assert (Q1 : - S <= x - r * e <= S) by (unfold S, e in *; nra). split; nra. }
  assert (D2 : - w <= t' - t <= w).
  { assert (Q : (t' - t) * (k + e) = y - t * e) by lra.
    assert (Q1 : - S <= y - t * e <= S) by (unfold S, e in *; nra). split; nra. }
  replace (S * (1 / 2 + (br + bt) / (rp + tp))) with (S * (1 / 2) + (br + bt) * w) by (unfold w; field; lra).
  replace (_ - _) with ((x + p * r' + q * t' - S * (1 / 2)) + (br * (r' - r) + bt * (t' - t))) by ring.
  assert (X1 : 0 <= p * r' <= p) by (split; nra). assert (X2 : 0 <= q * t' <= q) by (split; nra).
  assert (X3 : - (br * w) <= br * (r' - r) <= br * w) by (split; nra). assert (X4 : - (bt * w) <= bt * (t' - t) <= bt * w) by (split; nra).
  apply Rabs_le. unfold S in *. lra.
Qed.

Lemma still_range (A : nat -> view) l : 0 <= total (map (fun i => still (A i)) l) <= INR (length l).
Proof.
  induction l as [|i l IH]; [cbn [map total length INR]; lra|]. change (length (i :: l)) with (S (length l)). rewrite S_INR. cbn [map total].
  assert (0 <= still (A i) <= 1) by (unfold still; destruct (Nat.eqb _ _); lra). lra.
Qed.
Lemma still_of P v o : p_kz0rot P = None -> p_kz0refl P = None -> view_result P false v = Ok (Some o) ->
  unfinished (Ok (Some o)) = total (map still v) / INR (length v).
Proof.
  intros Hk1 Hk2 H. unfold view_result in H. rewrite Hk1, Hk2, enter_closed in H by assumption.
  destruct (bad_in P false v); [discriminate|].
  destruct (negb false && existsb past (map (fun a => nan_to_num (v_in P a)) v))%bool; [discriminate|]. cbn [bind] in H.
  rewrite exit_closed in H.
  destruct (existsb past (map v_ar v) || existsb past (map v_at v))%bool; [discriminate|]. cbn [bind] in H.
  match type of H with match ?d with _ => _ end = _ => destruct d as [[[[r t] rp] tp]|]; [|discriminate] end.
  apply L_rough.Ok_inj in H. apply (f_equal (fun x => match x with Some y => y | None => o end)) in H. subst o.
  unfold unfinished. cbn [o_refl_i o_trans_i]. rewrite map_length. f_equal. change (fold_right Rplus 0) with total. f_equal.
  clear. induction v as [|a v IH]; [reflexivity|]. cbn [map combine fst snd]. rewrite IH. reflexivity.
Qed.

(** ** Films *)
Section FilmMore.
Variables (nev nev' n : nat) (spot tmin tmax pmin pmax mu : R) (P : params) (D : draws).
Hypothesis (Hn : (0 < nev <= nev')%nat) (Hpos : (0 < n)%nat) (Hmu : 0 < mu) (HP : plain_film P) (Hu : forall n i, 0 <= d_u D n i < 1).
Local Notation A k := (fun i => film_view P (fl_traj k spot tmin tmax pmin pmax mu P D i)).
Local Notation SS f k := (total (map (fun i => f (A k i)) (seq 0 n))).
Lemma film_more : exists x y p q z, 0 <= x /\ 0 <= y /\ 0 <= p /\ 0 <= q /\ 0 <= z /\ x + y + p + q + z <= SS still nev /\ 0 <= SS still nev' <= SS still nev
   /\ SS (c_rp P false) nev' = SS (c_rp P false) nev + x /\ SS (c_tp P false) nev' = SS (c_tp P false) nev + y
   /\ SS (c_rf P false) nev' = SS (c_rf P false) nev + p /\ SS (c_tf P false) nev' = SS (c_tf P false) nev + q
   /\ SS (c_ab P false) nev' = SS (c_ab P false) nev + z /\ SS (c_sw P false) nev' = SS (c_sw P false) nev - (x + y + p + q + z)
   /\ SS (c_di P false) nev' = SS (c_di P false) nev.
Proof.
  pose proof (fl_nt P HP) as Ent. 
  destruct (fl_views nev spot tmin tmax pmin pmax mu P ltac:(lia) Hmu HP n D _ Hu eq_refl) as (V1 & _ & V3 & _).
  destruct (fl_views nev' spot tmin tmax pmin pmax mu P ltac:(lia) Hmu HP n D _ Hu eq_refl) as (V1' & _ & V3' & _).
  pose proof HP as (Hb & _ & _ & _ & _ & _ & _ & _ & Ha & Hm & Hf & Hbk).
  apply (follow_sums P ltac:(lra) ltac:(lra) Hf Hbk (A nev) (A nev') _ _ (seq 0 n) V3 V3').
  intros i Hi.
  assert (I1 : In (A nev i) (map (film_view P) (map (fl_traj nev spot tmin tmax pmin pmax mu P D) (seq 0 n)))) by (apply in_map, in_map, Hi).
  assert (I2 : In (A nev' i) (map (film_view P) (map (fl_traj nev' spot tmin tmax pmin pmax mu P D) (seq 0 n)))) by (apply in_map, in_map, Hi).
  split; [exact I1|]. split; [exact I2|]. split; [now apply V1|]. split; [now apply V1'|].
  apply (made_follows nev nev' mu D P); assumption.
Qed.
Lemma film_known k : (0 < k)%nat ->
  (forall i, In i (seq 0 n) -> 0 <= c_rp P false (A k i) /\ 0 <= c_tp P false (A k i) /\ 0 <= c_rf P false (A k i) /\ 0 <= c_tf P false (A k i) /\ 0 <= c_ab P false (A k i))
  /\ (let r := film_run k n spot tmin tmax pmin pmax mu P D in
     (exists o, r = Ok (Some o) /\ unfinished r = SS still k / INR n /\ 0 < SS (c_ab P false) k + SS (c_rp P false) k + SS (c_tp P false) k)
     \/ (unfinished r = 1 /\ (forall o, r <> Ok (Some o)) /\ SS (c_ab P false) k + SS (c_rp P false) k + SS (c_tp P false) k = 0)).
Proof.
  intros Hk. pose proof (fl_nt P HP) as Ent. 
  destruct (fl_views k spot tmin tmax pmin pmax mu P Hk Hmu HP n D _ Hu eq_refl) as (V1 & V2 & V3 & _).
  pose proof HP as (Hb & Hr & Hg & Hk1 & Hk2 & _ & _ & _ & Ha & Hm & Hf & Hbk).
  set (v := map (film_view P) (map (fl_traj k spot tmin tmax pmin pmax mu P D) (seq 0 n))) in *.
  assert (Lv : length v = n) by (unfold v; now rewrite !map_length, seq_length).
  assert (F : forall g, SS g k = total (map g v)) by (intros g; unfold v; now rewrite !map_map).
  assert (G : forall i, In i (seq 0 n) -> 0 <= c_rp P false (A k i) /\ 0 <= c_tp P false (A k i) /\ 0 <= c_rf P false (A k i) /\ 0 <= c_tf P false (A k i) /\ 0 <= c_ab P false (A k i)).
  { intros i Hi. assert (I1 : In (A k i) v) by (unfold v; apply in_map, in_map, Hi).
    destruct (c_range P false v ltac:(lra) ltac:(lra) Hf Hbk V3 (A k i) I1 (V1 _ I1)) as (Q1 & Q2 & Q3 & Q4 & Q5 & Q6 & Q7). repeat split; assumption. }
  split; [exact G|]. cbv zeta.
  assert (KS : c_known P false v = SS (c_ab P false) k + SS (c_rp P false) k + SS (c_tp P false) k).
  { unfold c_known. rewrite !F. generalize v. intros l; induction l as [|a l IH]; cbn [map total]; [lra|]. rewrite IH. lra. }
  assert (K0 : 0 <= SS (c_ab P false) k + SS (c_rp P false) k + SS (c_tp P false) k).
  { assert (N : forall f, (forall i, In i (seq 0 n) -> 0 <= f (A k i)) -> 0 <= SS f k).
    { intros f. generalize (seq 0 n). intros l; induction l as [|i l IH]; intros H; cbn [map total]; [lra|].
      pose proof (H i (or_introl eq_refl)). pose proof (IH ltac:(intros; apply H; now right)). lra. }
    pose proof (N (c_ab P false) (fun i Hi => proj2 (proj2 (proj2 (proj2 (G i Hi)))))). pose proof (N (c_rp P false) (fun i Hi => proj1 (G i Hi))).
    pose proof (N (c_tp P false) (fun i Hi => proj1 (proj2 (G i Hi)))). lra. }
  rewrite (fl_run k spot tmin tmax pmin pmax mu P Hk Hmu HP n D), crt_view by assumption. fold v.
  pose proof (answer_closed P false Hk1 Hk2 v) as An. rewrite V2, V3 in An. cbn [orb] in An.
  assert (Bk : bad_known P false v = true <-> c_known P false v = 0).
  { unfold bad_known. rewrite Hb. apply Reqb_true. }
  destruct (view_result P false v) as [[o|]|e] eqn:E.
  - left. exists o. split; [reflexivity|]. split.
    + rewrite (still_of P v o Hk1 Hk2 E), Lv, F. reflexivity.
    + cbn [answer] in An. destruct (bad_known P false v); [discriminate|].
      destruct (Rle_lt_or_eq_dec _ _ K0) as [L|E0]; [exact L|]. rewrite <- KS in E0. symmetry in E0. apply Bk in E0. discriminate.
  - right. split; [reflexivity|]. split; [discriminate|]. cbn [answer] in An. destruct (bad_known P false v); [|discriminate].
    rewrite <- KS. now apply Bk.
  - cbn [answer] in An. destruct (bad_known P false v); discriminate.
Qed.
End FilmMore.

(** ** Spheres *)
Section SphereMore.
Variables (nev nev' n : nat) (spot mu : R) (P : params) (D : draws).
Hypothesis (Hn : (0 < nev <= nev')%nat) (Hpos : (0 < n)%nat) (Hmu : 0 < mu) (Ha : 0 <= p_muabs P) (Hd : 0 < p_thickness P) (Hsp : 0 < spot <= p_thickness P)
  (Hb : p_boundary P = sphere) (Hr : p_run P = false) (Hp : plain P) (Hfd : full_detection P) (Hns : 0 < p_nmedium P <= p_nsample P)
  (Hv : valid_params P 1) (HD : good_draws D).
Local Notation A k := (fun i => film_view P (sp_traj k spot mu P D i)).
Local Notation SS f k := (total (map (fun i => f (A k i)) (seq 0 n))).
Lemma sphere_seen k : (0 < k)%nat -> let v := map (film_view P) (map (sp_traj k spot mu P D) (seq 0 n)) in
  seen P false v /\ exists o, sphere_run k n spot mu P D = Ok (Some o) /\ unfinished (Ok (Some o)) = SS still k / INR n.
Proof.
  intros Hk v. assert (HI : 0 < INR n) by now apply lt_0_INR.
  destruct Hp as (Hg & H1 & H2 & Hp1 & Hp2).
  assert (Hvn : valid_params P n).
  { unfold valid_params in Hv |- *. destruct Hv as (A & B & C & F & G & H & J & K & L). repeat (split; try assumption); intros kr Hkr; congruence. }
  set (D0 := mk_draws (d_l0 D) (d_l1 D) (d_l2 D) (d_l3 D) (d_ang D) (d_u D) (d_rang D) (fun _ _ _ => 0)).
  assert (E0 : sphere_run k n spot mu P D = sphere_run k n spot mu P D0).
  { rewrite !sp_run by assumption. apply L_simulation.no_rerun_draws, Hr. }
  destruct (L_simulation.sphere_run_ok k n spot mu P D0 Hk Hpos Hd Hsp Hmu Ha (proj1 HD) (proj2 HD)) as (o & Eo & _); try assumption.
  { intros. cbn. lra. }
  rewrite <- E0 in Eo. 
  assert (Er : sphere_run k n spot mu P D = calc_refl_trans 22 (d_rang D) (d_rstep D) P false 0 (map (sp_traj k spot mu P D) (seq 0 n))) by (apply sp_run; assumption).
  assert (HT : forall t, In t (map (sp_traj k spot mu P D) (seq 0 n)) -> col_ok 1 t /\ (p_boundary P = film -> dirs_ok t)).
  { intros t Ht. apply in_map_iff in Ht. destruct Ht as (i & <- & Hi). apply in_seq in Hi. split; [|congruence].
    apply (made_ok k n mu (p_muabs P) D (sp_pos spot P D) (sp_dir spot P D)); try assumption; [apply HD|lia]. }
  assert (Ln : length (map (sp_traj k spot mu P D) (seq 0 n)) = n) by now rewrite map_length, seq_length.
  assert (Hle : Rabs (p_nsample P) <= choose_n_tir P) by (unfold choose_n_tir; rewrite Hp1; lra).
  pose proof Eo as Eo2. rewrite Er in Eo2.
  pose proof (call_seen 21 _ _ P false 0 (map (sp_traj k spot mu P D) (seq 0 n)) o ltac:(rewrite Ln; exact Hvn) Hr Hg H1 H2 Hfd Hle HT Eo2) as Sn.
  split; [exact Sn|]. exists o. split; [exact Eo|]. rewrite crt_view in Eo2 by assumption. fold v in Eo2.
  rewrite (still_of P v o H1 H2 Eo2). unfold v. rewrite !map_map, !map_length, seq_length. reflexivity.
Qed.
Lemma sphere_more : exists x y p q z, 0 <= x /\ 0 <= y /\ 0 <= p /\ 0 <= q /\ 0 <= z /\ x + y + p + q + z <= SS still nev /\ 0 <= SS still nev' <= SS still nev
   /\ SS (c_rp P false) nev' = SS (c_rp P false) nev + x /\ SS (c_tp P false) nev' = SS (c_tp P false) nev + y
   /\ SS (c_rf P false) nev' = SS (c_rf P false) nev + p /\ SS (c_tf P false) nev' = SS (c_tf P false) nev + q
   /\ SS (c_ab P false) nev' = SS (c_ab P false) nev + z /\ SS (c_sw P false) nev' = SS (c_sw P false) nev - (x + y + p + q + z)
   /\ SS (c_di P false) nev' = SS (c_di P false) nev.
Proof.
  destruct (sphere_seen nev ltac:(lia)) as [(B & S1) _]. destruct (sphere_seen nev' ltac:(lia)) as [(B' & S1') _].
  pose proof Hv as (_ & _ & _ & _ & _ & Hf & Hbk & _).
  assert (Ent : 0 < choose_n_tir P) by (unfold choose_n_tir; destruct Hp as (_ & _ & _ & -> & _); rewrite Rabs_pos_eq; lra).
  apply (follow_sums P ltac:(lra) Ent Hf Hbk (A nev) (A nev') _ _ (seq 0 n) B B').
  intros i Hi.
  assert (I1 : In (A nev i) (map (film_view P) (map (sp_traj nev spot mu P D) (seq 0 n)))) by (apply in_map, in_map, Hi).
  assert (I2 : In (A nev' i) (map (film_view P) (map (sp_traj nev' spot mu P D) (seq 0 n)))) by (apply in_map, in_map, Hi).
  split; [exact I1|]. split; [exact I2|]. split; [now apply S1|]. split; [now apply S1'|].
  apply (made_follows nev nev' mu D P); try assumption. apply HD.
Qed.
End SphereMore.
