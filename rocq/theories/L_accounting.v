(** Energy accounting of calc_refl_trans (C27, C29, C31, C32, C34). *)
From Coq Require Import Lra Lia Psatz.
From Verif Require Export L_slots L_montecarlo.
Open Scope R_scope.


Lemma select_col_range W l ev : 0 <= W -> Forall (fun w => 0 <= w <= W) l ->
  0 <= select_col l ev <= W.
Proof.
  intros HW H. destruct ev as [|i]; cbn; [lra|].
  destruct (Nat.lt_ge_cases i (length l)) as [Hi|Hi].
  - rewrite Forall_forall in H. apply H, nth_In, Hi.
  - rewrite nth_overflow by exact Hi. lra.
Qed.

Lemma index_detected_cases ev t a b c d e :
  calc_index_detected ev t a b c d e = ev \/ calc_index_detected ev t a b c d e = 0%nat.
Proof.
  unfold calc_index_detected. destruct (calc_refracted_direction _ _ _ _) as [[k q]|]; auto.
  destruct (Rltb _ 0); auto. destruct (_ && _); auto.
Qed.

Section Acc.
Variables (P : params) (ft : bool) (n : nat) (T : nat -> traj) (inc : nat -> R).

Lemma sl_tr_w i : t_w (sl_tr P T i) = t_w (T i).
Proof. unfold sl_tr. destruct (p_gonio P); reflexivity. Qed.

Lemma sl_cases i : wf_len (T i) ->
  (sl_ri P T i = 0%nat /\ sl_ti P T i = 0%nat /\ sl_si P T i = length (t_dir (T i)))
  \/ (sl_ti P T i = 0%nat /\ sl_si P T i = 0%nat
      /\ (sl_ri P T i <= length (t_dir (T i)))%nat /\ (p_gonio P = None -> (0 < sl_ri P T i)%nat))
  \/ (sl_ri P T i = 0%nat /\ sl_si P T i = 0%nat
      /\ (0 < sl_ti P T i <= length (t_dir (T i)))%nat).
Proof.
  intros Hw.
  destruct (find_valid_exits (sl_nt P) (p_nmedium P) (p_thickness P) (p_zlow P) (p_boundary P) (T i))
    as [[ps ng] ti] eqn:E.
  destruct (trajectory_outcome _ _ _ _ _ _ _ _ _ Hw E) as [r [t [s [He Ho]]]].
  assert (Hri : (p_gonio P = None /\ sl_ri P T i = r) \/
                (p_gonio P <> None /\ (sl_ri P T i = r \/ sl_ri P T i = 0%nat))).
  { unfold sl_ri, sl_ev. rewrite He. destruct (p_gonio P) as [[[a b] c]|]; [right|left; auto].
    split; [discriminate|]. apply index_detected_cases. }
  unfold sl_ti, sl_si, sl_ev. rewrite He. cbn [i_trans i_stuck].
  destruct Ho as [(_ & _ & Hr & Ht & Hs) | [(k & _ & _ & Hk & Hr & Ht & Hs) | (k & _ & _ & Hk & Hr & Ht & Hs)]].
  - left. destruct Hri as [[_ Hx]|[_ [Hx|Hx]]]; repeat split; lia.
  - right; left. destruct Hri as [[_ Hx]|[Hg [Hx|Hx]]]; repeat split; try lia; contradiction.
  - right; right. destruct Hri as [[_ Hx]|[Hg [Hx|Hx]]]; repeat split; lia.
Qed.

Notation sr i := (select_col (t_w (sl_tr P T i)) (sl_ri P T i)).
Notation st i := (select_col (t_w (sl_tr P T i)) (sl_ti P T i)).
Notation ss i := (select_col (t_w (sl_tr P T i)) (sl_si P T i)).

Lemma sel_bounds W i : 0 <= W -> col_ok W (T i) ->
  0 <= sr i /\ 0 <= st i /\ 0 <= ss i /\ sr i + st i + ss i <= W.
Proof.
  intros HW [Hw Hf]. rewrite sl_tr_w.
  pose proof (select_col_range W (t_w (T i)) (sl_ri P T i) HW Hf).
  pose proof (select_col_range W (t_w (T i)) (sl_ti P T i) HW Hf).
  pose proof (select_col_range W (t_w (T i)) (sl_si P T i) HW Hf).
  destruct (sl_cases i Hw) as [(E1 & E2 & E3)|[(E1 & E2 & E3)|(E1 & E2 & E3)]];
    rewrite ?E1, ?E2 in *; cbn [select_col] in *; lra.
Qed.

Lemma select_repeat W m ev : (0 < ev <= m)%nat -> select_col (repeat W m) ev = W.
Proof.
  intros H. destruct ev as [|k]; [lia|]. cbn.
  rewrite (nth_indep _ 0 W) by (rewrite repeat_length; lia). apply nth_repeat.
Qed.

Lemma sel_exact W i : p_gonio P = None -> wf_len (T i) ->
  t_w (T i) = repeat W (length (t_dir (T i))) ->
  sr i + st i + ss i = W.
Proof.
  intros Hg Hw Hc. rewrite sl_tr_w, Hc. pose proof Hw as [_ [_ Hn]].
  destruct (sl_cases i Hw) as [(E1 & E2 & E3)|[(E1 & E2 & E3 & E4)|(E1 & E2 & E3)]].
  - rewrite E1, E2, E3. rewrite (select_repeat W _ (length _)) by lia. cbn; lra.
  - rewrite E1, E2. rewrite (select_repeat W _ (sl_ri P T i)) by (specialize (E4 Hg); lia). cbn; lra.
  - rewrite E1, E2. rewrite (select_repeat W _ (sl_ti P T i)) by lia. cbn; lra.
Qed.

Hypothesis Hg : good_params P n.
Hypothesis Hinc : inc_ok ft n inc.
Hypothesis Har : forall i, (i < n)%nat -> 0 <= sl_ar P T i <= PI / 2.
Hypothesis Hat : forall i, (i < n)%nat -> 0 <= sl_at P T i <= PI / 2.

Lemma slot_bounds W i : (i < n)%nat -> 0 <= W -> col_ok W (T i) ->
  0 <= sl_rw P T inc i /\ 0 <= sl_tw P T inc i /\ 0 <= sl_sw P T inc i
  /\ sl_rw P T inc i + sl_tw P T inc i + sl_sw P T inc i <= inc i * W
  /\ 0 <= sl_rp P T inc i <= sl_rw P T inc i /\ 0 <= sl_tp P T inc i <= sl_tw P T inc i
  /\ 0 <= sl_rf P T inc i /\ 0 <= sl_tf P T inc i.
Proof.
  intros Hi HW Hc. destruct (sel_bounds W i HW Hc) as (A & B & C & D).
  destruct Hg as (Hm & _ & Ht & Hf & Hb & _).
  pose proof (pf1_bounds _ _ _ _ Ht Hf Hm (Har i Hi)) as F1.
  pose proof (pf1_bounds _ _ _ _ Ht Hb Hm (Hat i Hi)) as F2.
  destruct (Hinc i Hi) as [Hin _].
  unfold sl_rf, sl_tf, sl_rp, sl_tp. unfold sl_nt.
  assert (R1 : 0 <= sl_rw P T inc i) by (unfold sl_rw; apply Rmult_le_pos; lra).
  assert (R2 : 0 <= sl_tw P T inc i) by (unfold sl_tw; apply Rmult_le_pos; lra).
  assert (R3 : 0 <= sl_sw P T inc i) by (unfold sl_sw; apply Rmult_le_pos; lra).
  assert (Hsum : sl_rw P T inc i + sl_tw P T inc i + sl_sw P T inc i <= inc i * W).
  { unfold sl_rw, sl_tw, sl_sw. rewrite <- !Rmult_plus_distr_l. apply Rmult_le_compat_l; lra. }
  assert (M : forall a f, 0 <= a -> 0 <= f < 1 -> 0 <= a * f <= a).
  { intros a f Ha Hf'. split; [apply Rmult_le_pos; lra|].
    rewrite <- (Rmult_1_r a) at 2. apply Rmult_le_compat_l; lra. }
  pose proof (M _ _ R1 F1). pose proof (M _ _ R2 F2).
  repeat split; try lra; try assumption.
Qed.

Lemma slot_exact W i : (i < n)%nat -> p_gonio P = None -> wf_len (T i) ->
  t_w (T i) = repeat W (length (t_dir (T i))) ->
  sl_rw P T inc i + sl_tw P T inc i + sl_sw P T inc i = inc i * W.
Proof.
  intros Hi Hgo Hw Hc. unfold sl_rw, sl_tw, sl_sw. rewrite <- !Rmult_plus_distr_l.
  f_equal. now apply sel_exact.
Qed.

Lemma slot_det i : (i < n)%nat -> 0 <= sl_rp P T inc i -> 0 <= sl_tp P T inc i ->
  0 <= sl_dr P T inc i <= sl_rp P T inc i /\ 0 <= sl_dt P T inc i <= sl_tp P T inc i.
Proof.
  intros Hi H1 H2. unfold sl_dr, sl_dt.
  destruct (detect1_cases (sl_ns P) (p_nmedium P) (p_detection P) (sl_ar P T i) (sl_rp P T inc i)) as [-> | ->];
  destruct (detect1_cases (sl_ns P) (p_nmedium P) (p_detection P) (sl_at P T i) (sl_tp P T inc i)) as [-> | ->]; lra.
Qed.
End Acc.

(* ------------------------------------------------------------------ *)
(** * Detected fraction *)

Lemma det_frac_range d p : 0 <= total d <= total p -> 0 < det_frac d p <= 1.
Proof.
  intros H. unfold det_frac, max2. rewrite !Rsum_total. pose proof EPS_pos.
  assert (H1 : 0 < Rmax (total d) EPS) by (eapply Rlt_le_trans; [exact H0|apply Rmax_r]).
  assert (H2 : 0 < Rmax (total p) EPS) by (eapply Rlt_le_trans; [exact H0|apply Rmax_r]).
  assert (H3 : Rmax (total d) EPS <= Rmax (total p) EPS) by (apply Rle_max_compat_r; lra).
  split; [now apply Rdiv_lt_0_compat|].
  apply (Rmult_le_reg_r (Rmax (total p) EPS)); [exact H2|].
  unfold Rdiv. rewrite Rmult_assoc, Rinv_l by lra. lra.
Qed.

Lemma det_frac_same p : det_frac p p = 1.
Proof.
  unfold det_frac, max2. pose proof EPS_pos.
  assert (0 < Rmax (Rsum p) EPS) by (eapply Rlt_le_trans; [exact H|apply Rmax_r]).
  field. lra.
Qed.

Lemma ndiv_some a b x : ndiv a b = Some x -> b <> 0 /\ x = a / b.
Proof.
  unfold ndiv. destruct (Reqb b 0) eqn:E; [discriminate|]. intros H; inversion H.
  apply Reqb_false in E. auto.
Qed.

Lemma map3_maps {A B C D E} (f : B -> C -> D -> E) (g : A -> B) (h : A -> C) (k : A -> D) l :
  map3 f (map g l) (map h l) (map k l) = map (fun a => f (g a) (h a) (k a)) l.
Proof. apply map3_map. Qed.

Lemma total_div {A} (f : A -> R) c l : total (map (fun x => f x / c) l) = total (map f l) / c.
Proof.
  unfold Rdiv. rewrite (total_map_ext (fun x => f x * / c) (fun x => / c * f x)).
  - rewrite total_map_scale. ring.
  - intros; ring.
Qed.

(* ------------------------------------------------------------------ *)
(** * distribute_ambig_traj_weights on slots *)

Section Distribute.
Variables (n : nat) (rf tf s dr dt di : nat -> R) (rfrac tfrac : num) (rdf tdf : R)
          (b : boundary) (det : bool).
Let L := seq 0 n.
Hypothesis Hn : (0 < n)%nat.
Hypothesis Hnn : forall i, (i < n)%nat ->
  0 <= rf i /\ 0 <= tf i /\ 0 <= s i /\ 0 <= dr i /\ 0 <= dt i /\ 0 <= di i.
Hypothesis Hrdf : 0 <= rdf <= 1.
Hypothesis Htdf : 0 <= tdf <= 1.

Lemma distribute_bounds R0 T0 rp tp :
  (forall x y, rfrac = Some x -> tfrac = Some y -> 0 <= x /\ 0 <= y /\ x + y <= 1) ->
  (b = film \/ det = false) ->
  distribute_ambig_traj_weights (map rf L) (map tf L) rfrac tfrac rdf tdf (map dr L) (map dt L)
    (map s L) (map di L) b det = Some (R0, T0, rp, tp) ->
  exists r t, rp = map r L /\ tp = map t L /\ R0 = total (map r L) /\ T0 = total (map t L)
    /\ forall i, (i < n)%nat ->
         0 <= r i /\ 0 <= t i
         /\ r i + t i <= (dr i + dt i + rf i + tf i + s i + di i) / INR n.
Proof.
  intros Hfr Hbd H. unfold distribute_ambig_traj_weights, L in *.
  rewrite !map_length, !seq_length in H.
  assert (HI : 0 < INR n) by (apply lt_0_INR; lia).
  rewrite !map3_maps in H.
  set (er := fun i => match b with
     | film => rf i * nan_to_num rfrac + tf i * nan_to_num tfrac + s i * (1 / 2)
     | sphere => 1 / 2 * (rf i + tf i + s i) end).
  set (et := fun i => match b with
     | film => tf i * nan_to_num rfrac + rf i * nan_to_num tfrac + s i * (1 / 2)
     | sphere => 1 / 2 * (tf i + rf i + s i) end).
  set (er2 := fun i => if det then rf i * nan_to_num rfrac else er i).
  set (in2 := fun i => if det then 0 else di i).
  assert (Hfin : exists x, rp = map (fun i => (dr i + er2 i * rdf + in2 i) / INR n) (seq 0 n)
       /\ tp = map (fun i => (dt i + et i * tdf) / INR n) (seq 0 n)
       /\ R0 = total rp /\ T0 = total tp /\ (b = film -> exists y z, rfrac = Some y /\ tfrac = Some z)
       /\ (det = true -> exists y, rfrac = Some y) /\ x = tt).
  { exists tt. destruct b.
    - destruct rfrac as [x|]; [|discriminate]. destruct tfrac as [y|]; [|discriminate].
      destruct det; repeat (rewrite map2_maps in H || rewrite map3_maps in H || rewrite map_map in H);
        injection H as E1 E2 E3 E4; rewrite <- E1, <- E2, <- E3, <- E4, !Rsum_total;
        unfold er2, in2, er, et; cbn [nan_to_num];
        (split; [reflexivity|]); (split; [reflexivity|]); (split; [reflexivity|]);
        (split; [reflexivity|]); (split; [eauto|]); (split; [eauto|]); auto.
    - destruct det.
      + destruct rfrac as [x|]; [|discriminate].
        repeat (rewrite map2_maps in H || rewrite map3_maps in H || rewrite map_map in H);
        injection H as E1 E2 E3 E4; rewrite <- E1, <- E2, <- E3, <- E4, !Rsum_total;
        unfold er2, in2, er, et; cbn [nan_to_num];
        (split; [reflexivity|]); (split; [reflexivity|]); (split; [reflexivity|]);
        (split; [reflexivity|]); (split; [discriminate|]); (split; [eauto|]); auto.
      + repeat (rewrite map2_maps in H || rewrite map3_maps in H || rewrite map_map in H);
        injection H as E1 E2 E3 E4; rewrite <- E1, <- E2, <- E3, <- E4, !Rsum_total;
        unfold er2, in2, er, et; cbn [nan_to_num];
        (split; [reflexivity|]); (split; [reflexivity|]); (split; [reflexivity|]);
        (split; [reflexivity|]); (split; [discriminate|]); (split; [discriminate|]); auto. }
  destruct Hfin as (_ & Erp & Etp & ER & ET & Hbf & Hdf & _).
  exists (fun i => (dr i + er2 i * rdf + in2 i) / INR n), (fun i => (dt i + et i * tdf) / INR n).
  split; [exact Erp|]. split; [exact Etp|]. split; [now rewrite <- Erp|]. split; [now rewrite <- Etp|].
  intros i Hi. destruct (Hnn i Hi) as (A & B & C & D & E & F).
  assert (Hx : 0 <= er2 i /\ 0 <= et i /\ er2 i + et i <= rf i + tf i + s i).
  { unfold er2, er, et. destruct b.
    - destruct (Hbf eq_refl) as (x & y & Ex & Ey). rewrite Ex, Ey. cbn [nan_to_num].
      destruct (Hfr x y Ex Ey) as (Hx & Hy & Hxy).
      assert (P1 : 0 <= rf i * x) by (apply Rmult_le_pos; lra).
      assert (P2 : 0 <= tf i * y) by (apply Rmult_le_pos; lra).
      assert (P3 : 0 <= tf i * x) by (apply Rmult_le_pos; lra).
      assert (P4 : 0 <= rf i * y) by (apply Rmult_le_pos; lra).
      assert (P5 : rf i * x + rf i * y <= rf i) by nra.
      assert (P6 : tf i * x + tf i * y <= tf i) by nra.
      destruct det; lra.
    - destruct Hbd as [Hbd|Hbd]; [discriminate|]. rewrite Hbd. lra. }
  destruct Hx as (X1 & X2 & X3).
  assert (Y1 : 0 <= er2 i * rdf <= er2 i).
  { split; [apply Rmult_le_pos; lra|]. rewrite <- (Rmult_1_r (er2 i)) at 2. apply Rmult_le_compat_l; lra. }
  assert (Y2 : 0 <= et i * tdf <= et i).
  { split; [apply Rmult_le_pos; lra|]. rewrite <- (Rmult_1_r (et i)) at 2. apply Rmult_le_compat_l; lra. }
  assert (Y3 : 0 <= in2 i <= di i) by (unfold in2; destruct det; lra).
  assert (HinvI : 0 < / INR n) by (apply Rinv_0_lt_compat, HI).
  split; [apply Rmult_le_pos; lra|]. split; [apply Rmult_le_pos; lra|].
  unfold Rdiv. rewrite <- Rmult_plus_distr_r. apply Rmult_le_compat_r; lra.
Qed.

(** Equality for a boundary whose left-over weight is fully redistributed. *)
Lemma distribute_exact R0 T0 rp tp :
  det = false -> rdf = 1 -> tdf = 1 ->
  (b = film -> forall x y, rfrac = Some x -> tfrac = Some y -> x + y = 1) ->
  distribute_ambig_traj_weights (map rf L) (map tf L) rfrac tfrac rdf tdf (map dr L) (map dt L)
    (map s L) (map di L) b det = Some (R0, T0, rp, tp) ->
  R0 + T0 = total (map (fun i => dr i + dt i + rf i + tf i + s i + di i) L) / INR n.
Proof.
  intros -> -> -> Hfr H. unfold distribute_ambig_traj_weights, L in *.
  rewrite !map_length, !seq_length in H.
  rewrite !map3_maps in H.
  assert (HI : 0 < INR n) by (apply lt_0_INR; lia).
  destruct b.
  - destruct rfrac as [x|]; [|discriminate]. destruct tfrac as [y|]; [|discriminate].
    specialize (Hfr eq_refl x y eq_refl eq_refl).
    repeat (rewrite map2_maps in H || rewrite map3_maps in H || rewrite map_map in H).
    injection H as E1 E2 _ _. rewrite <- E1, <- E2, !Rsum_total.
    rewrite <- total_map_plus, <- total_div. apply total_map_ext. intros i _.
    replace y with (1 - x) by lra. field. lra.
  - repeat (rewrite map2_maps in H || rewrite map3_maps in H || rewrite map_map in H).
    injection H as E1 E2 _ _. rewrite <- E1, <- E2, !Rsum_total.
    rewrite <- total_map_plus, <- total_div. apply total_map_ext. intros i _. field. lra.
Qed.
End Distribute.
