(** Lemmas on the totally internally reflected weights by event. *)
From Coq Require Import Lra Lia Psatz.
From Verif Require Import Spec Spec_events L_num L_exits L_weights L_slots L_accounting
  M_event_distribution L_events.
Open Scope R_scope.

Lemma tir_index_spec : forall n b r t, (length b <= n * 10)%nat ->
  (tir_index n b r t = 0%nat /\
     (never_true b \/ exists i, first_true b i /\ (0 < r <= i \/ 0 < t <= i)%nat))
  \/ exists i, tir_index n b r t = S i /\ first_true b i /\ (i < length b)%nat /\
               (r = 0 \/ i < r)%nat /\ (t = 0 \/ i < t)%nat.
Proof.
  intros n b r t Hn. unfold tir_index. cbv zeta.
  destruct (argmax_padded_spec b) as [[-> Hb]|[i [-> [Hi Hl]]]].
  - left. split; [|left; exact Hb].
    destruct (Nat.ltb_spec (or_inf n r) 0); [lia|].
    destruct (Nat.ltb_spec (or_inf n t) 0); [lia|reflexivity].
  - unfold or_inf.
    destruct (Nat.eqb_spec r 0), (Nat.eqb_spec t 0);
      (match goal with |- context [Nat.ltb ?x (S i)] => destruct (Nat.ltb_spec x (S i)) end);
      (match goal with |- context [Nat.ltb ?x ?y] => destruct (Nat.ltb_spec x y) end); try lia;
      solve [ left; split; [reflexivity|right; exists i; split; [assumption|lia]]
               | right; exists i; repeat split; try assumption; try reflexivity; try apply Hi; lia ].
Qed.

Lemma ww_dom : forall e n (i i' : nat -> nat) (a a' : nat -> R),
  (forall k, (k < n)%nat -> 0 <= a k) ->
  (forall k, (k < n)%nat -> i' k = e -> i k = e /\ a' k <= a k) ->
  weight_where (Nat.eqb e) (map i' (seq 0 n)) (map a' (seq 0 n))
  <= weight_where (Nat.eqb e) (map i (seq 0 n)) (map a (seq 0 n)).
Proof.
  intros e n i i' a a' Ha H.
  assert (G : forall l, (forall k, In k l -> (k < n)%nat) ->
    weight_where (Nat.eqb e) (map i' l) (map a' l) <= weight_where (Nat.eqb e) (map i l) (map a l)).
  { induction l as [|k l IH]; intro Hl; [unfold weight_where; cbn; lra|].
    cbn [map]. rewrite !weight_where_cons.
    specialize (IH (fun k' Hk => Hl k' (or_intror Hk))).
    pose proof (Hl k (or_introl eq_refl)) as Hk. specialize (H k Hk). specialize (Ha k Hk).
    destruct (Nat.eqb_spec e (i' k)) as [E|E].
    - destruct (H (eq_sym E)) as [E2 L]. rewrite E2, Nat.eqb_refl. lra.
    - destruct (Nat.eqb e (i k)); lra. }
  apply G. intros k Hk. apply in_seq in Hk. lia.
Qed.

Lemma ww_le_total : forall P idx a, Forall (fun x => 0 <= x) a ->
  weight_where P idx a <= total a.
Proof.
  induction idx as [|i idx IH]; intros a H.
  - rewrite weight_where_nil. apply total_nonneg; assumption.
  - destruct a as [|x a]; [unfold weight_where; cbn; lra|].
    rewrite weight_where_cons. cbn [total]. pose proof (Forall_inv H). cbn beta in *.
    specialize (IH a (Forall_inv_tail H)). destruct (P i); lra.
Qed.

Lemma film_angle_range : forall z, 0 <= film_angle z <= PI / 2.
Proof.
  intro z. unfold film_angle. split; [apply acos_bound|].
  rewrite <- acos_0. destruct (Req_dec (Rabs z) 0) as [E|E]; [rewrite E; lra|].
  pose proof (Rabs_pos z). destruct (Rle_lt_dec (Rabs z) 1).
  - left. apply acos_decreasing; lra.
  - unfold acos at 1.
    destruct (Rle_dec (Rabs z) (-1)); [lra|]. destruct (Rle_dec 1 (Rabs z)); [|lra].
    rewrite acos_0. pose proof PI_RGT_0. lra.
Qed.

Lemma angles_nonneg : forall idx b trs th x, In x (get_angles idx b trs th None) -> 0 <= x.
Proof.
  intros idx b trs th x. unfold get_angles. destruct b.
  - revert idx. induction trs as [|t trs IH]; intros [|i idx]; cbn [map2]; try contradiction.
    intros [<-|H]; [apply film_angle_range|eauto].
  - revert idx. induction trs as [|t trs IH]; intros [|i idx]; cbn [map2]; try contradiction.
    intros [<-|H]; [|eauto]. unfold sphere_exit_angle. destruct (inf_to_large _ _ _).
    apply acos_bound.
Qed.

Lemma map2_maps {A B C} (f : A -> B -> C) (g : nat -> A) (h : nat -> B) l :
  map2 f (map g l) (map h l) = map (fun k => f (g k) (h k)) l.
Proof. induction l as [|k l IH]; cbn; [reflexivity|]. rewrite IH. reflexivity. Qed.

Lemma select_maps : forall (T : nat -> traj) (i : nat -> nat) l,
  select_all (map (fun k => t_w (T k)) l) (map i l) = map (fun k => select_col (t_w (T k)) (i k)) l.
Proof. intros. unfold select_all. rewrite map2_maps. reflexivity. Qed.

Definition ang1 (b : boundary) (th : R) (t : traj) (i : nat) : R :=
  match b with film => film_exit_angle t i | sphere => fst (sphere_exit_angle th t i) end.
Lemma get_angles_maps : forall (T : nat -> traj) (i : nat -> nat) b th l,
  get_angles (map i l) b (map T l) th None = map (fun k => ang1 b th (T k) (i k)) l.
Proof. intros. unfold get_angles, ang1. destruct b; rewrite map2_maps; reflexivity. Qed.

Section Tir.
Variables (N n : nat) (T : nat -> traj) (B : nat -> list bool) (ri ti : nat -> nat)
  (inc : nat -> R) (ns nm th : R) (b : boundary).
Let L := seq 0 N.
Definition s_tir k := tir_index n (B k) (ri k) (ti k).
Definition s_single k := if Nat.eqb (s_tir k) 2 then s_tir k else 0%nat.
Definition s_refl (i : nat -> nat) k := if Nat.eqb (i k) 0 then 0%nat else ri k.
Definition s_amt (i : nat -> nat) k := (1 - inc k) * select_col (t_w (T k)) (i k) / INR N.
Definition s_pass (i : nat -> nat) k := s_amt i k * pf1 ns None nm (ang1 b th (T k) (i k)).

Lemma calc_tir_slots : forall out,
  calc_tir (map B L) (map ri L) (map ti L) (map inc L) ns nm b (map T L) n th = Ok out ->
  (forall k, In k L -> ang1 b th (T k) (s_refl s_tir k) <= PI / 2) /\
  (forall k, In k L -> ang1 b th (T k) (s_refl s_single k) <= PI / 2) /\
  let ev i a := add_loop (seq 1 (n - 1)) (fun e => e) (sum_at (map a L) (map i L))
                  (zeros (2 * n + 1)) in
  ev s_tir (s_amt s_tir) = Ok (ti_all out) /\
  ev (s_refl s_tir) (s_pass (s_refl s_tir)) = Ok (ti_all_refl out) /\
  ev s_single (s_amt s_single) = Ok (ti_single out) /\
  ev (s_refl s_single) (s_pass (s_refl s_single)) = Ok (ti_single_refl out) /\
  ti_single_idx out = map s_single L.
Proof.
  intros out. unfold calc_tir. cbv zeta.
  rewrite map3_map. fold L. change (fun a => tir_index n (B a) (ri a) (ti a)) with s_tir.
  rewrite !map_map. change (fun x => if Nat.eqb (s_tir x) 2 then s_tir x else 0%nat) with s_single.
  rewrite !map2_maps. assert (HL : length L = N) by apply seq_length. rewrite map_length, HL.
  change (fun k => if Nat.eqb (s_tir k) 0 then 0%nat else ri k) with (s_refl s_tir).
  change (fun k => if Nat.eqb (s_single k) 0 then 0%nat else ri k) with (s_refl s_single).
  rewrite !get_angles_maps, !select_maps, !map2_maps.
  destruct (fresnel_pass_frac ns None nm (map (fun k => ang1 b th (T k) (s_refl s_tir k)) L))
    as [p1|e] eqn:E1; [|discriminate].
  cbn [bind].
  destruct (fresnel_pass_frac ns None nm (map (fun k => ang1 b th (T k) (s_refl s_single k)) L))
    as [p2|e] eqn:E2; [|discriminate].
  cbn [bind].
  apply pass_frac_inv in E1. destruct E1 as [-> F1].
  apply pass_frac_inv in E2. destruct E2 as [-> F2].
  rewrite !map_map. rewrite !map2_maps.
  repeat match goal with |- context [add_loop ?e ?p ?a ?z] =>
    lazymatch a with _ => destruct (add_loop e p a z) eqn:? end; [|discriminate]; cbn [bind] end.
  intro H. inversion H. subst out. cbn [ti_all ti_all_refl ti_single ti_single_refl ti_single_idx].
  split; [|split].
  - intros k Hk. rewrite Forall_map, Forall_forall in F1. exact (F1 k Hk).
  - intros k Hk. rewrite Forall_map, Forall_forall in F2. exact (F2 k Hk).
  - repeat split; assumption.
Qed.
End Tir.

Section TirFacts.
Variables (N n : nat) (T : nat -> traj) (B : nat -> list bool) (ri ti : nat -> nat)
  (inc : nat -> R) (ns nm th : R) (b : boundary) (out : tir_events).
Hypothesis HN : (0 < N)%nat.
Hypothesis Hns : 0 < ns.
Hypothesis Hnm : 0 < nm.
Hypothesis Hinc : forall k, (k < N)%nat -> 0 <= inc k <= 1.
Hypothesis Hw : forall k, (k < N)%nat -> Forall (fun w => 0 <= w <= 1) (t_w (T k)).
Hypothesis Hok : calc_tir (map B (seq 0 N)) (map ri (seq 0 N)) (map ti (seq 0 N))
  (map inc (seq 0 N)) ns nm b (map T (seq 0 N)) n th = Ok out.

Notation tirk := (s_tir n B ri ti).
Notation sngk := (s_single n B ri ti).
Notation amt := (s_amt N T inc).
Notation pas := (s_pass N T inc ns nm th b).

Lemma ang_range : forall k i, ang1 b th (T k) i <= PI / 2 -> 0 <= ang1 b th (T k) i <= PI / 2.
Proof.
  intros k i H. split; [|assumption]. unfold ang1. destruct b.
  - apply film_angle_range.
  - unfold sphere_exit_angle. destruct (inf_to_large _ _ _). apply acos_bound.
Qed.

Lemma amt_range : forall i k, (k < N)%nat -> 0 <= amt i k <= / INR N.
Proof.
  intros i k Hk. unfold s_amt.
  pose proof (select_col_range 1 (t_w (T k)) (i k) ltac:(lra) (Hw k Hk)).
  pose proof (Hinc k Hk).
  assert (P : 0 < / INR N) by (apply Rinv_0_lt_compat, lt_0_INR; assumption).
  set (v := (1 - inc k) * select_col (t_w (T k)) (i k)).
  assert (V : 0 <= v <= 1) by (unfold v; nra). unfold Rdiv. nra.
Qed.

Lemma pas_range : forall i k, (k < N)%nat -> ang1 b th (T k) (i k) <= PI / 2 ->
  0 <= pas i k <= amt i k.
Proof.
  intros i k Hk Ha. unfold s_pass. pose proof (amt_range i k Hk) as A.
  pose proof (pf1_bounds ns None nm _ Hns ltac:(intros; discriminate) Hnm (ang_range k (i k) Ha)) as P.
  set (a := amt i k) in *. nra.
Qed.

Lemma total_const_le : forall (f : nat -> R) c l, (forall k, In k l -> f k <= c) ->
  total (map f l) <= INR (length l) * c.
Proof.
  intros f c l. induction l as [|k l IH]; intro H; [cbn; lra|].
  cbn [map total length]. rewrite S_INR. pose proof (H k (or_introl eq_refl)).
  specialize (IH (fun k' Hk => H k' (or_intror Hk))). lra.
Qed.

(** One event array. *)
Lemma tir_array : forall i a res,
  add_loop (seq 1 (n - 1)) (fun e => e) (sum_at (map a (seq 0 N)) (map i (seq 0 N)))
    (zeros (2 * n + 1)) = Ok res ->
  (forall k, (k < N)%nat -> 0 <= a k <= / INR N) ->
  length res = (2 * n + 1)%nat /\
  (forall e, nth e res 0 =
     if Nat.leb 1 e && Nat.ltb e n
     then weight_where (Nat.eqb e) (map i (seq 0 N)) (map a (seq 0 N)) else 0) /\
  (forall e, 0 <= nth e res 0) /\ 0 <= total res <= 1.
Proof.
  intros i a res E Ha.
  destruct (event_array (map i (seq 0 N)) (map a (seq 0 N)) (n - 1) (2 * n + 1))
    as [r [Er [L [R0 [R1 [R2 R3]]]]]].
  { rewrite !map_length. reflexivity. }
  { lia. }
  rewrite E in Er. injection Er as <-.
  assert (F : Forall (fun x => 0 <= x) (map a (seq 0 N))).
  { apply Forall_map, Forall_forall. intros k Hk. apply in_seq in Hk. apply Ha. lia. }
  split; [exact L|].
  assert (V : forall e, nth e res 0 =
     if Nat.leb 1 e && Nat.ltb e n
     then weight_where (Nat.eqb e) (map i (seq 0 N)) (map a (seq 0 N)) else 0).
  { intro e. destruct (Nat.leb_spec 1 e), (Nat.ltb_spec e n); cbn [andb].
    - apply R1. lia.
    - apply R2. lia.
    - replace e with 0%nat by lia. exact R0.
    - replace e with 0%nat by lia. exact R0. }
  split; [exact V|]. split; [|rewrite R3; split].
  - intro e. rewrite V. destruct (_ && _); [apply weight_where_nonneg; exact F|lra].
  - apply weight_where_nonneg; exact F.
  - eapply Rle_trans; [apply ww_le_total; exact F|].
    eapply Rle_trans; [apply (total_const_le a (/ INR N))|].
    + intros k Hk. apply in_seq in Hk. apply Ha. lia.
    + rewrite seq_length. right. field. apply not_0_INR. lia.
Qed.

Lemma tir_facts :
  length (ti_all out) = (2 * n + 1)%nat /\ length (ti_all_refl out) = (2 * n + 1)%nat /\
  length (ti_single out) = (2 * n + 1)%nat /\ length (ti_single_refl out) = (2 * n + 1)%nat /\
  (forall e, 0 <= nth e (ti_single out) 0 <= nth e (ti_all out) 0 /\
             0 <= nth e (ti_single_refl out) 0 <= nth e (ti_all_refl out) 0) /\
  (forall e, e <> 2%nat -> nth e (ti_single out) 0 = 0) /\
  nth 2 (ti_single out) 0 = nth 2 (ti_all out) 0 /\
  total (ti_all out) <= 1 /\ total (ti_all_refl out) <= 1 /\
  (forall e, nth e (ti_all out) 0 =
     if Nat.leb 1 e && Nat.ltb e n
     then weight_where (Nat.eqb e) (map tirk (seq 0 N)) (map (amt tirk) (seq 0 N)) else 0).
Proof.
  destruct (calc_tir_slots N n T B ri ti inc ns nm th b out Hok) as [A1 [A2 [E1 [E2 [E3 [E4 _]]]]]].
  assert (Q1 : forall k, (k < N)%nat -> 0 <= pas (s_refl ri tirk) k <= / INR N).
  { intros k Hk. pose proof (pas_range (s_refl ri tirk) k Hk (A1 k ltac:(apply in_seq; lia))).
    pose proof (amt_range (s_refl ri tirk) k Hk). lra. }
  assert (Q2 : forall k, (k < N)%nat -> 0 <= pas (s_refl ri sngk) k <= / INR N).
  { intros k Hk. pose proof (pas_range (s_refl ri sngk) k Hk (A2 k ltac:(apply in_seq; lia))).
    pose proof (amt_range (s_refl ri sngk) k Hk). lra. }
  destruct (tir_array _ _ _ E1 (amt_range tirk)) as [L1 [V1 [P1 T1]]].
  destruct (tir_array _ _ _ E2 Q1) as [L2 [V2 [P2 T2]]].
  destruct (tir_array _ _ _ E3 (amt_range sngk)) as [L3 [V3 [P3 T3]]].
  destruct (tir_array _ _ _ E4 Q2) as [L4 [V4 [P4 T4]]].
  split; [exact L1|]. split; [exact L2|]. split; [exact L3|]. split; [exact L4|].
  assert (SG : forall k, sngk k = 2%nat /\ tirk k = 2%nat \/ sngk k = 0%nat /\ tirk k <> 2%nat).
  { intro k. unfold s_single. destruct (Nat.eqb_spec (tirk k) 2); auto. }
  split; [|split; [|split; [|split; [|split]]]].
  - intro e. split; (split; [first [apply P3|apply P4]|]).
    + rewrite V1, V3. destruct (Nat.leb_spec 1 e), (Nat.ltb_spec e n); cbn [andb]; try lra.
      apply ww_dom; [intros k Hk; apply amt_range; assumption|].
      intros k Hk Hs. destruct (SG k) as [[S1 S2]|[S1 S2]]; [|lia].
      split; [lia|]. right. unfold s_amt. rewrite S1, S2. reflexivity.
    + rewrite V2, V4. destruct (Nat.leb_spec 1 e), (Nat.ltb_spec e n); cbn [andb]; try lra.
      apply ww_dom; [intros k Hk; apply Q1; assumption|].
      intros k Hk Hs. unfold s_refl in Hs.
      destruct (SG k) as [[S1 S2]|[S1 S2]]; [|rewrite S1 in Hs; cbn in Hs; lia].
      assert (K : s_refl ri sngk k = s_refl ri tirk k) by (unfold s_refl; rewrite S1, S2; reflexivity).
      split.
      * rewrite <- K. unfold s_refl. exact Hs.
      * right. unfold s_pass, s_amt. rewrite K. reflexivity.
  - intros e He. rewrite V3. destruct (_ && _); [|reflexivity].
    assert (G : forall l, weight_where (Nat.eqb e) (map sngk l) (map (amt sngk) l) = 0).
    { induction l as [|k l IH]; [reflexivity|]. cbn [map]. rewrite weight_where_cons, IH.
      destruct (SG k) as [[S1 S2]|[S1 S2]]; rewrite S1.
      - destruct (Nat.eqb_spec e 2); [contradiction|lra].
      - destruct (Nat.eqb_spec e 0) as [->|]; [|lra].
        unfold s_amt. rewrite S1. cbn [select_col]. unfold Rdiv. ring. }
    apply G.
  - rewrite V1, V3. destruct (_ && _); [|reflexivity].
    assert (G : forall l, weight_where (Nat.eqb 2) (map sngk l) (map (amt sngk) l)
                        = weight_where (Nat.eqb 2) (map tirk l) (map (amt tirk) l)).
    { induction l as [|k l IH]; [reflexivity|]. cbn [map]. rewrite !weight_where_cons, IH.
      destruct (SG k) as [[S1 S2]|[S1 S2]]; rewrite S1.
      - rewrite S2. unfold s_amt. rewrite S1, S2. reflexivity.
      - destruct (Nat.eqb_spec 2 0); [lia|]. destruct (Nat.eqb_spec 2 (tirk k)); [congruence|].
        reflexivity. }
    apply G.
  - apply T1.
  - apply T2.
  - exact V1.
Qed.
End TirFacts.
