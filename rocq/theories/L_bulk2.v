(** The value of the sphere phase function (C124). *)
From Coq Require Import Lra Lia Psatz.
From Verif Require Import Num Spec Spec_bulk Spec_bulk2 M_phase_func_sphere L_num L_montecarlo L_montecarlo2 L_bulk L_bulk_pdf.
Open Scope R_scope.

Lemma map2_app {A B D} (f : A -> B -> D) : forall l1 m1 l2 m2, length l1 = length m1 ->
  map2 f (l1 ++ l2) (m1 ++ m2) = map2 f l1 m1 ++ map2 f l2 m2.
Proof.
  induction l1 as [|a l1 IH]; intros [|b m1] l2 m2 H; try discriminate; [reflexivity|].
  cbn. f_equal. apply IH. now injection H.
Qed.
Lemma map2_maps' {A B D E} (f : B -> D -> E) (g : A -> B) (h : A -> D) l : map2 f (map g l) (map h l) = map (fun a => f (g a) (h a)) l.
Proof. induction l as [|a l IH]; [reflexivity|]. cbn. now rewrite IH. Qed.
Lemma total_map_plus {A} (f g : A -> R) l : total (map (fun a => f a + g a) l) = total (map f l) + total (map g l).
Proof. induction l as [|a l IH]; cbn; [lra|]. rewrite IH. lra. Qed.
Lemma total_map_scale {A} c (f : A -> R) l : total (map (fun a => c * f a) l) = c * total (map f l).
Proof. induction l as [|a l IH]; cbn; [lra|]. rewrite IH. lra. Qed.

(** Scaling does not change the normalised array. *)
Lemma normalise_scale {A} c (f : A -> R) l : c <> 0 -> normalise (map (fun a => c * f a) l) = normalise (map f l).
Proof.
  intros Hc. unfold normalise. cbv zeta. rewrite !map_map, (Rsum_total (map (fun a => c * f a) l)), (Rsum_total (map f l)), total_map_scale.
  apply map_ext. intros a. destruct (Req_dec (total (map f l)) 0) as [E|E].
  - rewrite E, Rmult_0_r. rewrite (proj2 (Reqb_true 0 0) eq_refl). reflexivity.
  - rewrite (proj2 (Reqb_false (total (map f l)) 0)) by exact E.
    rewrite (proj2 (Reqb_false (c * total (map f l)) 0)) by (apply Rmult_integral_contrapositive; split; assumption).
    f_equal. field. split; assumption.
Qed.

(** The kernel estimate from weighted values [nu] with its mirror images. *)
Definition mirrored (h : R) (F : list nat) (nu w : nat -> R) (u : R) : R :=
  total (map (fun i => w i * (gaussian h (u + nu i) + gaussian h (u - nu i) + gaussian h (u - (2 - nu i)))) F).

Lemma kde_mirrored h F nu w : total (map w F) <> 0 ->
  exists f, gaussian_kde h (map Ropp (map nu F) ++ map nu F ++ map (fun x => - x + 2) (map nu F))
                 (map w F ++ map w F ++ map w F) = Ok f
    /\ forall u, f u = / (3 * total (map w F)) * mirrored h F nu w u.
Proof.
  intros Hw. unfold gaussian_kde. rewrite !app_length, !map_length, Nat.eqb_refl. cbn [negb].
  eexists. split; [reflexivity|]. intros u.
  rewrite !map_map. rewrite !map2_app by (rewrite !map_length; reflexivity). rewrite !map2_maps'.
  rewrite !Rsum_total, !total_app. set (W := total (map w F)) in *. replace (W + (W + W)) with (3 * W) by ring.
  unfold mirrored. rewrite <- !total_map_plus, <- total_map_scale. f_equal. apply map_ext. intros i.
  replace (u - - nu i) with (u + nu i) by ring. replace (u - (- nu i + 2)) with (u - (2 - nu i)) by ring. field. exact Hw.
Qed.

Definition mirrored_bw (bw : list R -> list R -> R) (F : list nat) (nu w : nat -> R) : R :=
  bw (map Ropp (map nu F) ++ map nu F ++ map (fun x => - x + 2) (map nu F)) (map w F ++ map w F ++ map w F).

Lemma pdf_from_lists bw F nu w (after : list nat) : F <> [] -> (forall i, In i F -> 0 < w i) ->
  exists h, h = bw (map Ropp (map nu F) ++ map nu F ++ map (fun x => - x + 2) (map nu F)) (map w F ++ map w F ++ map w F) /\
  match map Ropp (map nu F) ++ map nu F ++ map (fun x => - x + 2) (map nu F) with
  | [] => Ok (None, after)
  | _ => bind (gaussian_kde (bw (map Ropp (map nu F) ++ map nu F ++ map (fun x => - x + 2) (map nu F)) (map w F ++ map w F ++ map w F))
           (map Ropp (map nu F) ++ map nu F ++ map (fun x => - x + 2) (map nu F)) (map w F ++ map w F ++ map w F)) (fun pdf =>
        Ok (Some (normalise (map (fun t => pdf ((cos t + 1) / 2)) pdf_angles)), after))
  end = Ok (Some (normalise (map (fun t => mirrored h F nu w ((cos t + 1) / 2)) pdf_angles)), after).
Proof.
  intros HF Hw. exists (bw (map Ropp (map nu F) ++ map nu F ++ map (fun x => - x + 2) (map nu F)) (map w F ++ map w F ++ map w F)). split; [reflexivity|].
  assert (Ht : 0 < total (map w F)).
  { destruct F as [|i F]; [contradiction|]. cbn [map total]. pose proof (Hw i (or_introl eq_refl)).
    assert (0 <= total (map w F)); [|lra]. apply total_map_nonneg. intros k Hk. left. apply Hw. now right. }
  set (D := map Ropp (map nu F) ++ map nu F ++ map (fun x => - x + 2) (map nu F)).
  assert (HD : D <> []) by (unfold D; destruct F; [contradiction|discriminate]).
  set (h := bw D (map w F ++ map w F ++ map w F)).
  destruct (kde_mirrored h F nu w ltac:(lra)) as (f & Ef & Hf). fold D in Ef. rewrite Ef. cbn [bind].
  destruct D as [|d0 D']; [contradiction|].
  do 2 f_equal. f_equal. rewrite (map_ext _ (fun t => / (3 * total (map w F)) * mirrored h F nu w ((cos t + 1) / 2))) by (intros t; apply Hf).
  rewrite normalise_scale; [reflexivity|]. apply Rinv_neq_0_compat. lra.
Qed.

Lemma filter_scattered (p : nat -> bool) ri ti n : (forall i, (i < n)%nat -> p i = scatteredb ri ti i) ->
  filter p (seq 0 n) = filter (scatteredb ri ti) (seq 0 n).
Proof.
  intros H. apply filter_ext_in. intros i Hi. apply in_seq in Hi. apply H. lia.
Qed.

Lemma map_on_filter {A} (f g : nat -> A) (p : nat -> bool) n : (forall i, (i < n)%nat -> p i = true -> f i = g i) ->
  map f (filter p (seq 0 n)) = map g (filter p (seq 0 n)).
Proof.
  intros H. apply map_ext_in. intros i Hi. apply filter_In in Hi as [Hi Hp]. apply in_seq in Hi. apply H; [lia|exact Hp].
Qed.

Lemma pdf_value_pos bw n z radius rw tw ri ti :
  one_exit n ri ti -> 0 < radius ->
  (forall i, (i < n)%nat -> scattered_out ri ti i -> 0 < exit_weight rw tw ri ti i /\ z i <> 0 /\ - radius <= z i <= radius) ->
  (exists i, (i < n)%nat /\ scattered_out ri ti i) ->
  exists h, h = mirrored_bw bw (filter (scatteredb ri ti) (seq 0 n)) (fun i => (z i / radius + 1) / 2) (exit_weight rw tw ri ti) /\
    pdf_call bw n z radius rw tw ri ti None
    = Ok (Some (normalise (map (fun t => mirrored h (filter (scatteredb ri ti) (seq 0 n)) (fun i => (z i / radius + 1) / 2)
                             (exit_weight rw tw ri ti) ((cos t + 1) / 2)) pdf_angles)),
          map (fun i => if Nat.eqb (ri i) 0 then 0%nat else 1%nat) (seq 0 n)).
Proof.
  intros Ho Hr Hs (i0 & Hi0 & Hsc0). unfold pdf_call, option_map, calc_pdf. rewrite thetas_z, weights_map.
  unfold nonzero. rewrite !filter_map_comm. rewrite (map_map ri flag).
  change (fun x => flag (ri x)) with (fun i => if Nat.eqb (ri i) 0 then 0%nat else 1%nat).
  rewrite (filter_scattered (fun a => negb (Reqb (kept_z z rw tw ri ti a) 0)) ri ti n).
  2:{ intros i Hi. rewrite (kept_z_value _ _ _ _ _ _ n Ho Hi). destruct (scatteredb ri ti i) eqn:E; cbn [andb].
      - apply scatteredb_true in E. destruct (Hs i Hi E) as (H1 & H2 & _).
        rewrite (proj2 (Reqb_false (exit_weight rw tw ri ti i) 0)) by lra. cbn [negb]. now apply negb_Reqb.
      - now rewrite (proj2 (Reqb_true 0 0)). }
  rewrite (filter_scattered (fun a => negb (Reqb (kept_weight rw tw ri ti a) 0)) ri ti n).
  2:{ intros i Hi. rewrite (kept_weight_value _ _ _ _ _ n Ho Hi). destruct (scatteredb ri ti i) eqn:E.
      - apply scatteredb_true in E. destruct (Hs i Hi E) as (H1 & H2 & _). apply negb_Reqb. lra.
      - now rewrite (proj2 (Reqb_true 0 0)). }
  set (F := filter (scatteredb ri ti) (seq 0 n)).
  assert (HF : F <> []).
  { intros E. assert (Hin : In i0 F) by (apply filter_In; split; [apply in_seq; lia|now apply scatteredb_true]). rewrite E in Hin. destruct Hin. }
  assert (Ew : map (kept_weight rw tw ri ti) F = map (exit_weight rw tw ri ti) F).
  { apply map_on_filter. intros i Hi E. rewrite (kept_weight_value _ _ _ _ _ n Ho Hi), E. reflexivity. }
  rewrite (map_map (kept_z z rw tw ri ti)). rewrite (map_map (fun x => acos (kept_z z rw tw ri ti x / radius))).
  assert (En : map (fun x => (cos (acos (kept_z z rw tw ri ti x / radius)) + 1) / 2) F = map (fun i => (z i / radius + 1) / 2) F).
  { apply map_on_filter. intros i Hi E. rewrite (kept_z_value _ _ _ _ _ _ n Ho Hi), E. cbn [andb].
    apply scatteredb_true in E. destruct (Hs i Hi E) as (H1 & H2 & H3).
    rewrite (proj2 (Reqb_false (exit_weight rw tw ri ti i) 0)) by lra. cbn [negb].
    rewrite cos_acos; [reflexivity|]. split; apply (Rmult_le_reg_r radius); try assumption; unfold Rdiv; rewrite Rmult_assoc, Rinv_l; lra. }
  rewrite Ew, En.
  apply pdf_from_lists; [exact HF|]. intros i Hi. apply filter_In in Hi as [Hi E]. apply in_seq in Hi.
  apply scatteredb_true in E. destruct (Hs i ltac:(lia) E) as (H1 & _). exact H1.
Qed.

Lemma pdf_value_kz bw n z radius rw tw ri ti k :
  one_exit n ri ti ->
  (forall i, (i < n)%nat -> scattered_out ri ti i -> 0 < exit_weight rw tw ri ti i
     /\ nth (ri i + ti i - 1) (k i) 0 <> 0 /\ -1 <= nth (ri i + ti i - 1) (k i) 0 <= 1) ->
  (exists i, (i < n)%nat /\ scattered_out ri ti i) ->
  exists h, h = mirrored_bw bw (filter (scatteredb ri ti) (seq 0 n)) (fun i => (nth (ri i + ti i - 1) (k i) 0 + 1) / 2) (exit_weight rw tw ri ti) /\
    pdf_call bw n z radius rw tw ri ti (Some k)
    = Ok (Some (normalise (map (fun t => mirrored h (filter (scatteredb ri ti) (seq 0 n)) (fun i => (nth (ri i + ti i - 1) (k i) 0 + 1) / 2)
                             (exit_weight rw tw ri ti) ((cos t + 1) / 2)) pdf_angles)),
          map (fun i => if Nat.eqb (ri i) 0 then 0%nat else 1%nat) (seq 0 n)).
Proof.
  intros Ho Hs (i0 & Hi0 & Hsc0). unfold pdf_call, option_map, calc_pdf. rewrite thetas_kz, weights_map.
  unfold nonzero. rewrite !filter_map_comm. rewrite (map_map ri flag).
  change (fun x => flag (ri x)) with (fun i => if Nat.eqb (ri i) 0 then 0%nat else 1%nat).
  rewrite (filter_scattered (fun a => negb (Reqb (kept_kz k ri ti a) 0)) ri ti n).
  2:{ intros i Hi. rewrite (kept_kz_value _ _ _ _ n Ho Hi). destruct (scatteredb ri ti i) eqn:E.
      - apply scatteredb_true in E. destruct (Hs i Hi E) as (H1 & H2 & _). now apply negb_Reqb.
      - now rewrite (proj2 (Reqb_true 0 0)). }
  rewrite (filter_scattered (fun a => negb (Reqb (kept_weight rw tw ri ti a) 0)) ri ti n).
  2:{ intros i Hi. rewrite (kept_weight_value _ _ _ _ _ n Ho Hi). destruct (scatteredb ri ti i) eqn:E.
      - apply scatteredb_true in E. destruct (Hs i Hi E) as (H1 & H2 & _). apply negb_Reqb. lra.
      - now rewrite (proj2 (Reqb_true 0 0)). }
  set (F := filter (scatteredb ri ti) (seq 0 n)).
  assert (HF : F <> []).
  { intros E. assert (Hin : In i0 F) by (apply filter_In; split; [apply in_seq; lia|now apply scatteredb_true]). rewrite E in Hin. destruct Hin. }
  assert (Ew : map (kept_weight rw tw ri ti) F = map (exit_weight rw tw ri ti) F).
  { apply map_on_filter. intros i Hi E. rewrite (kept_weight_value _ _ _ _ _ n Ho Hi), E. reflexivity. }
  rewrite (map_map (kept_kz k ri ti)). rewrite (map_map (fun x => acos (kept_kz k ri ti x))).
  assert (En : map (fun x => (cos (acos (kept_kz k ri ti x)) + 1) / 2) F = map (fun i => (nth (ri i + ti i - 1) (k i) 0 + 1) / 2) F).
  { apply map_on_filter. intros i Hi E. rewrite (kept_kz_value _ _ _ _ n Ho Hi), E.
    apply scatteredb_true in E. destruct (Hs i Hi E) as (H1 & H2 & H3). rewrite cos_acos; [reflexivity|exact H3]. }
  rewrite Ew, En.
  apply pdf_from_lists; [exact HF|]. intros i Hi. apply filter_In in Hi as [Hi E]. apply in_seq in Hi.
  apply scatteredb_true in E. destruct (Hs i ltac:(lia) E) as (H1 & _). exact H1.
Qed.



Lemma total_filter (p : nat -> bool) (f : nat -> R) l :
  total (map f (filter p l)) = total (map (fun i => if p i then f i else 0) l).
Proof. induction l as [|a l IH]; [reflexivity|]. cbn. destruct (p a); cbn; rewrite IH; lra. Qed.

Lemma mirrored_kernel h n ri ti nu w u :
  mirrored h (filter (scatteredb ri ti) (seq 0 n)) nu w u = kernel_estimate h n ri ti nu w u.
Proof.
  unfold mirrored, kernel_estimate, over. rewrite total_filter. f_equal. apply map_ext. intros i.
  change (is_scattered ri ti i) with (scatteredb ri ti i). destruct (scatteredb ri ti i); [|reflexivity].
  change normal_density with gaussian. now replace (u - - nu i) with (u + nu i) by ring.
Qed.

Lemma mirrored_bw_spec bw n ri ti nu w :
  mirrored_bw bw (filter (scatteredb ri ti) (seq 0 n)) nu w
  = bw (with_images (map nu (scattered_ones n ri ti))) (thrice (map w (scattered_ones n ri ti))).
Proof.
  unfold mirrored_bw, with_images, thrice, scattered_ones. change (is_scattered ri ti) with (scatteredb ri ti).
  f_equal. do 2 f_equal. apply map_ext. intros x. ring.
Qed.

Lemma normalise_tabulated (f : R -> R) : (forall u, 0 < f u) ->
  normalise (map (fun t => f ((cos t + 1) / 2)) pdf_angles) = tabulated f.
Proof.
  intros Hf. unfold normalise, tabulated. cbv zeta. rewrite Rsum_total, map_map. unfold pdf_angles.
  set (A := linspace (1 / 100) PI 200).
  rewrite (map_ext (fun t => f ((cos t + 1) / 2)) (fun t => f ((1 + cos t) / 2))) by (intros t; f_equal; field).
  assert (HA : A <> []).
  { intros E. assert (L : length A = 200%nat) by apply linspace_length. rewrite E in L. discriminate. }
  assert (Hp : 0 < total (map (fun t => f ((1 + cos t) / 2)) A)).
  { destruct A as [|a A]; [contradiction|]. cbn [map total].
    assert (0 <= total (map (fun t => f ((1 + cos t) / 2)) A)) by (apply total_map_nonneg; intros t _; left; apply Hf).
    pose proof (Hf ((1 + cos a) / 2)). lra. }
  apply map_ext. intros t. rewrite (proj2 (Reqb_false _ 0)) by lra. do 2 f_equal. f_equal. field.
Qed.

Lemma kernel_positive h n ri ti nu w u : 0 < h ->
  (forall i, (i < n)%nat -> scattered_out ri ti i -> 0 < w i) -> (exists i, (i < n)%nat /\ scattered_out ri ti i) ->
  0 < kernel_estimate h n ri ti nu w u.
Proof.
  intros Hh Hw (i0 & Hi0 & H0).
  assert (G : forall x, 0 < normal_density h x).
  { intros x. unfold normal_density. apply Rdiv_lt_0_compat; [apply exp_pos|]. apply Rmult_lt_0_compat; [exact Hh|].
    apply sqrt_lt_R0. pose proof PI_RGT_0. lra. }
  unfold kernel_estimate, over. rewrite <- (total_filter (is_scattered ri ti)).
  assert (Hin : In i0 (filter (is_scattered ri ti) (seq 0 n))).
  { apply filter_In; split; [apply in_seq; lia|]. apply (scatteredb_true ri ti). exact H0. }
  assert (Hall : forall i, In i (filter (is_scattered ri ti) (seq 0 n)) -> 0 < w i).
  { intros i Hi. apply filter_In in Hi as [Hi E]. apply in_seq in Hi. apply Hw; [lia|]. apply (scatteredb_true ri ti). exact E. }
  destruct (filter (is_scattered ri ti) (seq 0 n)) as [|a l]; [destruct Hin|]. cbn [map total].
  assert (T : forall i, 0 < w i -> 0 < w i * (normal_density h (u - - nu i) + normal_density h (u - nu i) + normal_density h (u - (2 - nu i)))).
  { intros i Hi. apply Rmult_lt_0_compat; [exact Hi|]. pose proof (G (u - - nu i)). pose proof (G (u - nu i)). pose proof (G (u - (2 - nu i))). lra. }
  pose proof (T a (Hall a (or_introl eq_refl))).
  assert (0 <= total (map (fun i => w i * (normal_density h (u - - nu i) + normal_density h (u - nu i) + normal_density h (u - (2 - nu i)))) l)).
  { apply total_map_nonneg. intros i Hi. left. apply T. apply Hall. now right. }
  lra.
Qed.

Lemma exit_z n nr nt r : map vz (get_exit_pos (map nr (seq 0 n)) (map nt (seq 0 n)) r) = map (fun i => (vz (nr i) + vz (nt i)) * r) (seq 0 n).
Proof.
  unfold get_exit_pos. rewrite map2_maps', map_map. apply map_ext. intros i. cbv zeta.
  destruct (nr i) as [[? ?] ?], (nt i) as [[? ?] ?]. cbn. ring.
Qed.
