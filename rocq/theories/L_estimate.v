(** Lemmas for C157. *)
From Coq Require Import Lra Lia Psatz Reals List FunctionalExtensionality.
From Verif Require Import Num Spec Spec_detector Spec_meta Spec_mean Spec_direct Spec_estimate M_init M_montecarlo M_detector M_simulation
  L_num L_outcomes L_exits L_meta L_meta3 L_meta4 L_pool L_montecarlo2 L_simulation L_fieldflow L_mean L_periodic L_local L_rough L_direct Properties_meta Properties_pool.
From Coquelicot Require Import Coquelicot.
Import ListNotations.
Open Scope R_scope.

(** ** Means over blocks *)
Definition shift (off K : nat) (t : nat -> R) : nat -> R := fun k => if Nat.ltb k K then t (off + k)%nat else 0.
Lemma shift_upd off K t x : shift off (S K) (upd t (off + K) x) = upd (shift off K t) K x.
Proof.
  apply functional_extensionality. intros k. unfold shift, upd.
  destruct (Nat.eqb_spec k K) as [->|N].
  - rewrite (proj2 (Nat.ltb_lt K (S K))) by lia. now rewrite Nat.eqb_refl.
  - destruct (Nat.ltb_spec k (S K)), (Nat.ltb_spec k K); try lia; [|reflexivity].
    destruct (Nat.eqb_spec (off + k) (off + K)); [lia|reflexivity].
Qed.
Lemma dep_upd n F t k x : dep n F -> (n <= k)%nat -> F (upd t k x) = F t.
Proof. intros H Hk. apply H. intros i Hi. apply upd_other. lia. Qed.
Lemma block_mean K : forall f1 f2 m1 m2, is_mean K f1 m1 -> is_mean K f2 m2 ->
  forall off A B M, dep off A -> dep off B -> is_mean off (fun t => A t + B t * m1 + m2) M ->
  is_mean (off + K) (fun t => A t + B t * f1 (shift off K t) + f2 (shift off K t)) M.
Proof.
  induction K as [|K IH]; intros f1 f2 m1 m2 H1 H2 off A B M HA HB H.
  - rewrite Nat.add_0_r. revert H. apply is_mean_ext. intros t. now rewrite H1, H2.
  - destruct H1 as (G1 & I1 & J1). destruct H2 as (G2 & I2 & J2). rewrite Nat.add_succ_r.
    exists (fun t => A t + B t * G1 (shift off K t) + G2 (shift off K t)). split; [|now apply (IH G1 G2 m1 m2)].
    intros t. apply (is_RInt_ext (fun x => A t + B t * f1 (upd (shift off K t) K x) + f2 (upd (shift off K t) K x))).
    { intros x _. rewrite shift_upd, (dep_upd off A t (off + K) x HA), (dep_upd off B t (off + K) x HB) by lia. reflexivity. }
    pose proof (is_RInt_plus _ _ 0 1 _ _ (is_RInt_plus _ _ 0 1 _ _ (is_RInt_const 0 1 (A t)) (is_RInt_scal _ 0 1 (B t) _ (I1 (shift off K t)))) (I2 (shift off K t))) as Q.
    refine (eq_ind _ (fun v => is_RInt _ 0 1 v) Q _ _).
    change ((1 - 0) * A t + B t * G1 (shift off K t) + G2 (shift off K t) = A t + B t * G1 (shift off K t) + G2 (shift off K t)). ring.
Qed.
Definition sums (K : nat) (g : (nat -> R) -> R) (n : nat) (t : nat -> R) : R := total (map (fun i => g (numbers_of K t i)) (seq 0 n)).
Lemma sums_S K g n t : sums K g (S n) t = sums K g n t + g (shift (n * K) K t).
Proof.
  unfold sums. rewrite seq_S, map_app, total_app'. change (0 + n)%nat with n. change (total (map _ (cons n nil))) with (g (shift (n * K) K t) + 0). ring.
Qed.
Lemma sums_dep K g n : dep (n * K) (sums K g n).
Proof.
  intros t t' H. unfold sums. f_equal. apply map_ext_in. intros i Hi. apply in_seq in Hi. f_equal.
  apply functional_extensionality. intros k. unfold numbers_of. destruct (Nat.ltb_spec k K); [|reflexivity]. apply H. nia.
Qed.
Lemma sums_mean K g m n : is_mean K g m -> is_mean (n * K) (sums K g n) (INR n * m).
Proof.
  intros Hg. induction n as [|n IH].
  - cbn [Nat.mul is_mean]. intros t. unfold sums. cbn. ring.
  - rewrite S_INR. replace (S n * K)%nat with (n * K + K)%nat by lia.
    apply (is_mean_ext _ (fun t => sums K g n t + 0 * 0 + g (shift (n * K) K t))); [intros t; rewrite sums_S; ring|].
    apply (block_mean K (fun _ => 0) g 0 m (is_mean_const K 0) Hg (n * K) (sums K g n) (fun _ => 0)).
    + apply sums_dep.
    + intros t t' _. reflexivity.
    + pose proof (is_mean_plus _ _ _ _ _ IH (is_mean_const (n * K) m)) as Q.
      replace ((INR n + 1) * m) with (INR n * m + m) by ring. revert Q. apply is_mean_ext. intros t. ring.
Qed.
Lemma sums_variance K h v n : is_mean K h 0 -> is_mean K (fun t => h t ^ 2) v -> is_mean (n * K) (fun t => sums K h n t ^ 2) (INR n * v).
Proof.
  intros H1 H2. induction n as [|n IH].
  - cbn [Nat.mul is_mean]. intros t. unfold sums. cbn. ring.
  - rewrite S_INR. replace (S n * K)%nat with (n * K + K)%nat by lia.
    apply (is_mean_ext _ (fun t => sums K h n t ^ 2 + 2 * sums K h n t * h (shift (n * K) K t) + h (shift (n * K) K t) ^ 2)); [intros t; rewrite sums_S; ring|].
    apply (block_mean K h (fun t => h t ^ 2) 0 v H1 H2 (n * K) (fun t => sums K h n t ^ 2) (fun t => 2 * sums K h n t)).
    + intros t t' E. now rewrite (sums_dep K h n t t' E).
    + intros t t' E. now rewrite (sums_dep K h n t t' E).
    + pose proof (is_mean_plus _ _ _ _ _ IH (is_mean_const (n * K) v)) as Q.
      replace ((INR n + 1) * v) with (INR n * v + v) by ring. revert Q. apply is_mean_ext. intros t. ring.
Qed.
(** The average of independent copies: same mean, variance divided by n. *)
Lemma average_mean K g m n F : (0 < n)%nat -> (forall t, F t = sums K g n t / INR n) -> is_mean K g m -> is_mean (n * K) F m.
Proof.
  intros Hn E Hg. assert (HI : 0 < INR n) by now apply lt_0_INR.
  apply (is_mean_ext _ (fun t => / INR n * sums K g n t)); [intros t; rewrite E; unfold Rdiv; ring|].
  replace m with (/ INR n * (INR n * m)) by (field; lra). apply is_mean_scal. now apply sums_mean.
Qed.
Lemma sums_minus K g m n t : sums K (fun s => g s - m) n t = sums K g n t - INR n * m.
Proof.
  unfold sums. assert (E : forall l, total (map (fun i => g (numbers_of K t i) - m) l) = total (map (fun i => g (numbers_of K t i)) l) - INR (length l) * m).
  { induction l as [|i l IH]; [cbn; ring|]. cbn [map total length]. rewrite IH, S_INR. ring. }
  rewrite E, seq_length. reflexivity.
Qed.
Lemma average_variance K g m v n F : (0 < n)%nat -> (forall t, F t = sums K g n t / INR n) -> is_mean K g m ->
  is_mean K (fun t => (g t - m) ^ 2) v -> is_mean (n * K) (fun t => (F t - m) ^ 2) (v / INR n).
Proof.
  intros Hn E Hg Hv. assert (HI : 0 < INR n) by now apply lt_0_INR.
  apply (is_mean_ext _ (fun t => / (INR n * INR n) * sums K (fun s => g s - m) n t ^ 2)).
  - intros t. rewrite sums_minus, E. field. lra.
  - replace (v / INR n) with (/ (INR n * INR n) * (INR n * v)) by (field; lra). apply is_mean_scal.
    apply (sums_variance K (fun s => g s - m)); [|exact Hv].
    replace 0 with (m + -1 * m) by ring. pose proof (is_mean_plus K g _ m _ Hg (is_mean_const K (-1 * m))) as Q. revert Q. apply is_mean_ext. intros t. ring.
Qed.

(** ** Order *)
Definition inside (n : nat) (t : nat -> R) : Prop := forall i, (i < n)%nat -> 0 < t i < 1.
Lemma inside_upd n t x : inside n t -> 0 < x < 1 -> inside (S n) (upd t n x).
Proof. intros H Hx i Hi. unfold upd. destruct (Nat.eqb_spec i n); [exact Hx|]. apply H. lia. Qed.
Lemma is_mean_le n : forall F G a b, (forall t, inside n t -> F t <= G t) -> is_mean n F a -> is_mean n G b -> a <= b.
Proof.
  induction n as [|n IH]; intros F G a b H HF HG.
  - rewrite <- (HF (fun _ => 0)), <- (HG (fun _ => 0)). apply H. intros i Hi. lia.
  - destruct HF as (F' & I1 & J1). destruct HG as (G' & I2 & J2). apply (IH F' G'); [|assumption..].
    intros t Ht. apply (is_RInt_le (fun x => F (upd t n x)) (fun x => G (upd t n x)) 0 1); [lra|apply I1|apply I2|].
    intros x Hx. apply H. now apply inside_upd.
Qed.

(** ** The trajectories of a run *)
Definition made (nev : nat) (mu mua : R) (D : draws) (p k : vec) (i : nat) : traj :=
  let dirs := map (scat_dir k (d_ang D i)) (seq 0 nev) in
  mk_traj (move (p :: repeat vzero nev) dirs (steps_of nev mu D i)) dirs (absorb mua (repeat 1 nev) (steps_of nev mu D i)).

Lemma made_run nev ntraj mu mua D (p k : nat -> vec) : (0 < nev)%nat -> 0 < mu ->
  trajectories nev ntraj mu mua D (map (fun i => (p i, Some (k i), repeat 1 nev)) (seq 0 ntraj))
  = Ok (Some (map (fun i => made nev mu mua D (p i) (k i) i) (seq 0 ntraj))).
Proof.
  intros Hn Hmu. unfold trajectories. rewrite L_montecarlo.sample_step_single by lra. cbn [bind].
  rewrite (run_trajs_fun nev mua _ _ p k) by exact Hn.
  do 2 f_equal. apply map_ext_in. intros i Hi. apply in_seq in Hi. cbv zeta. rewrite column_steps by lia. reflexivity.
Qed.
Lemma made_ok nev ntraj mu mua D (p k : nat -> vec) i : (0 < nev)%nat -> 0 < mu -> 0 <= mua -> (forall n i, 0 <= d_u D n i < 1) -> (i < ntraj)%nat ->
  col_ok 1 (made nev mu mua D (p i) (k i) i) /\ (unit (k i) -> dirs_ok (made nev mu mua D (p i) (k i) i)).
Proof.
  intros Hn Hmu Ha Hu Hi. set (l := map (fun i => (p i, Some (k i), repeat 1 nev)) (seq 0 ntraj)).
  destruct (trajectories_ok nev ntraj mu mua D l (fun j _ q => q = k j) Hn Hmu Hu Ha) as (T' & E & HT).
  - unfold l. now rewrite map_length, seq_length.
  - intros j st Hj. unfold l in Hj. apply map_seq_nth_error in Hj as [_ <-]. eauto.
  - unfold l in E. rewrite made_run in E by assumption.
    assert (E' : map (fun i => made nev mu mua D (p i) (k i) i) (seq 0 ntraj) = map T' (seq 0 ntraj)) by congruence.
    assert (E2 : made nev mu mua D (p i) (k i) i = T' i).
    { apply (f_equal (fun l => nth i l (made nev mu mua D (p 0%nat) (k 0%nat) 0))) in E'.
      rewrite (nth_indep (map T' (seq 0 ntraj)) _ (T' 0%nat)) in E' by (rewrite map_length, seq_length; exact Hi).
      rewrite (map_nth T'), (map_nth (fun i => made nev mu mua D (p i) (k i) i)), !seq_nth in E' by exact Hi. exact E'. }
    rewrite E2. destruct (HT i Hi) as (p' & k' & -> & _ & _ & _ & Du & Dc & _). auto.
Qed.

(** *** Spheres *)
Section Sphere.
Variables (nev : nat) (spot mu : R) (P : params).
Hypothesis (Hn : (0 < nev)%nat) (Hmu : 0 < mu) (Ha : 0 <= p_muabs P) (Hd : 0 < p_thickness P) (Hsp : 0 < spot <= p_thickness P)
  (Hb : p_boundary P = sphere) (Hr : p_run P = false) (Hp : plain P) (Hfd : full_detection P) (Hns : 0 < p_nmedium P <= p_nsample P)
  (Hv : valid_params P 1).
Definition sp_pos (D : draws) (i : nat) : vec := sphere_start_pos spot (p_thickness P / 2) (d_l0 D i) (d_l1 D i).
Definition sp_dir (D : draws) (i : nat) : vec :=
  match sphere_entry_dir (p_thickness P / 2) (sp_pos D i) (p_nmedium P) (p_nsample P) with Some k => k | None => vzero end.
Definition sp_traj (D : draws) (i : nat) : traj := made nev mu (p_muabs P) D (sp_pos D i) (sp_dir D i) i.
Lemma sp_run n D : good_draws D -> sphere_run nev n spot mu P D = calc_refl_trans 22 (d_rang D) (d_rstep D) P false 0 (map (sp_traj D) (seq 0 n)).
Proof.
  intros [G0 Gu]. unfold sphere_run, initialize_sphere. cbn [bind].
  rewrite (map_ext_in _ (fun i => (sp_pos D i, Some (sp_dir D i), repeat 1 nev))).
  - rewrite made_run by assumption. reflexivity.
  - intros i _. cbv zeta. change (sphere_start_pos _ _ _ _) with (sp_pos D i). f_equal. f_equal. unfold sp_dir.
    destruct (sphere_entry_faces spot (p_thickness P / 2) (d_l0 D i) (d_l1 D i) (p_nmedium P) (p_nsample P) (sp_pos D i)
      ltac:(lra) ltac:(lra) (G0 i) Hns eq_refl) as (k & Ek & _). now rewrite Ek.
Qed.
Definition sp_r (a : view) : R := own_r P false a + 1 / 2 * (c_rf P false a + c_tf P false a).
Definition sp_t (a : view) : R := own_t P false a + 1 / 2 * (c_rf P false a + c_tf P false a).
Lemma sp_split n D : (0 < n)%nat -> good_draws D ->
  refl_of (sphere_run nev n spot mu P D) = total (map (fun i => sp_r (film_view P (sp_traj D i))) (seq 0 n)) / INR n
  /\ trans_of (sphere_run nev n spot mu P D) = total (map (fun i => sp_t (film_view P (sp_traj D i))) (seq 0 n)) / INR n.
Proof.
  intros Hpos HD. assert (HI : 0 < INR n) by now apply lt_0_INR.
  destruct Hp as (Hg & H1 & H2 & Hp1 & Hp2).
  assert (Hvn : valid_params P n).
  { unfold valid_params in Hv |- *. destruct Hv as (A & B & C & F & G & H & J & K & L). repeat (split; try assumption); intros kr Hkr; congruence. }
  set (D0 := mk_draws (d_l0 D) (d_l1 D) (d_l2 D) (d_l3 D) (d_ang D) (d_u D) (d_rang D) (fun _ _ _ => 0)).
  assert (E0 : sphere_run nev n spot mu P D = sphere_run nev n spot mu P D0).
  { rewrite !sp_run by exact HD. apply no_rerun_draws, Hr. }
  destruct (sphere_run_ok nev n spot mu P D0 Hn Hpos Hd Hsp Hmu Ha (proj1 HD) (proj2 HD)) as (o & Eo & _); try assumption.
  { intros. cbn. lra. }
  rewrite <- E0 in Eo. rewrite Eo. cbn [refl_of trans_of]. rewrite sp_run in Eo by exact HD.
  assert (HT : forall t, In t (map (sp_traj D) (seq 0 n)) -> col_ok 1 t /\ (p_boundary P = film -> dirs_ok t)).
  { intros t Ht. apply in_map_iff in Ht. destruct Ht as (i & <- & Hi). apply in_seq in Hi. split; [|congruence].
    apply (made_ok nev n mu (p_muabs P) D (sp_pos D) (sp_dir D)); try assumption; [apply HD|lia]. }
  assert (Ln : length (map (sp_traj D) (seq 0 n)) = n) by now rewrite map_length, seq_length.
  assert (Hle : Rabs (p_nsample P) <= choose_n_tir P) by (unfold choose_n_tir; rewrite Hp1; lra).
  pose proof (call_seen 21 _ _ P false 0 (map (sp_traj D) (seq 0 n)) o ltac:(rewrite Ln; exact Hvn) Hr Hg H1 H2 Hfd Hle HT Eo) as Sn.
  destruct (answered P false 21 _ _ 0 _ o Hr Hg H1 H2 Eo) as (_ & _ & _ & ER & ET).
  set (v := map (film_view P) (map (sp_traj D) (seq 0 n))) in *.
  assert (Lv : length v = n) by (unfold v; now rewrite map_length).
  destruct (R_split P false v ltac:(lia) Sn) as [QR QT]. rewrite Lv, <- ER in QR. rewrite Lv, <- ET in QT.
  unfold shared_r, shared_t in QR, QT. rewrite Hb in QR, QT. unfold back_r, back_t in QR, QT.
  assert (F : forall g, total (map (fun i => g (film_view P (sp_traj D i))) (seq 0 n)) = total (map g v)) by (intros g; unfold v; now rewrite !map_map).
  rewrite (F sp_r), (F sp_t). unfold sp_r, sp_t.
  assert (X : forall f, total (map (fun a => f a + 1 / 2 * (c_rf P false a + c_tf P false a)) v)
     = total (map f v) + 1 / 2 * (total (map (c_rf P false) v) + total (map (c_tf P false) v))).
  { intros f. generalize v. intros l; induction l as [|a l IH]; cbn [map total]; [lra|]. rewrite IH. lra. }
  rewrite !X. split; apply Rmult_eq_reg_l with (INR n); try lra; [rewrite QR|rewrite QT]; field; lra.
Qed.
Lemma many_good K dr t : (forall s, good_draws (dr s)) -> good_draws (many K dr t).
Proof. intros H. split; [intros i; apply (H (numbers_of K t i))|intros n i; apply (H (numbers_of K t i))]. Qed.
Lemma sp_average K dr n t : (0 < n)%nat -> (forall s, good_draws (dr s)) ->
  refl_of (sphere_run nev n spot mu P (many K dr t)) = sums K (fun s => refl_of (sphere_run nev 1 spot mu P (dr s))) n t / INR n
  /\ trans_of (sphere_run nev n spot mu P (many K dr t)) = sums K (fun s => trans_of (sphere_run nev 1 spot mu P (dr s))) n t / INR n.
Proof.
  intros Hpos HD. destruct (sp_split n (many K dr t) Hpos (many_good K dr t HD)) as [-> ->]. unfold sums.
  split; f_equal; f_equal; apply map_ext; intros i; destruct (sp_split 1 (dr (numbers_of K t i)) ltac:(lia) (HD _)) as [Er Et]; [rewrite Er|rewrite Et];
    cbn [seq map total]; change (INR 1) with 1; unfold Rdiv; rewrite Rinv_1, Rmult_1_r, Rplus_0_r; reflexivity.
Qed.
End Sphere.

(** *** Films *)
Lemma view_pass P v o : p_kz0rot P = None -> p_kz0refl P = None -> view_result P false v = Ok (Some o) ->
  o_refl_pass o = map (fun a => c_rp P false a / INR (length v)) v /\ o_trans_pass o = map (fun a => c_tp P false a / INR (length v)) v.
Proof.
  intros Hk1 Hk2 H. unfold view_result in H. rewrite Hk1, Hk2, enter_closed in H by assumption.
  destruct (bad_in P false v); [discriminate|].
  destruct (negb false && existsb past (map (fun a => nan_to_num (v_in P a)) v))%bool; [discriminate|]. cbn [bind] in H.
  rewrite exit_closed in H.
  destruct (existsb past (map v_ar v) || existsb past (map v_at v))%bool; [discriminate|]. cbn [bind] in H.
  match type of H with match ?d with _ => _ end = _ => destruct d as [[[[r t] rp] tp]|]; [|discriminate] end.
  apply L_rough.Ok_inj in H. apply (f_equal (fun x => match x with Some y => y | None => o end)) in H. subst o.
  cbn [o_refl_pass o_trans_pass x_refl_pass x_trans_pass]. rewrite !map_map. auto.
Qed.
Section Film.
Variables (nev : nat) (spot tmin tmax pmin pmax mu : R) (P : params).
Hypothesis (Hn : (0 < nev)%nat) (Hmu : 0 < mu) (HP : plain_film P).
Definition fl_pos (D : draws) (i : nat) : vec := (d_l0 D i * spot, d_l1 D i * spot, 0).
Definition fl_entry (D : draws) (i : nat) : option vec :=
  entry_dir (uniform tmin tmax (d_l2 D i)) (cos (uniform pmin pmax (d_l3 D i))) (sin (uniform pmin pmax (d_l3 D i))) (p_nmedium P) (p_nsample P).
Definition fl_dir (D : draws) (i : nat) : vec := match fl_entry D i with Some k => k | None => vzero end.
Definition fl_traj (D : draws) (i : nat) : traj := made nev mu (p_muabs P) D (fl_pos D i) (fl_dir D i) i.

Lemma fl_entry_some D i : exists th, fl_entry D i = Some (fl_dir D i) /\ unit (fl_dir D i) /\ vz (fl_dir D i) = cos th
  /\ sin th = p_nmedium P / p_nsample P * sin (uniform tmin tmax (d_l2 D i)).
Proof.
  destruct HP as (_ & _ & _ & _ & _ & _ & _ & _ & _ & Hm & _).
  unfold fl_dir, fl_entry, entry_dir, refraction. rewrite (Rabs_pos_eq (p_nmedium P)), (Rabs_pos_eq (p_nsample P)) by lra.
  set (x := sin (uniform tmin tmax (d_l2 D i))). set (ph := uniform pmin pmax (d_l3 D i)).
  assert (B : -1 <= p_nmedium P / p_nsample P * x <= 1).
  { assert (0 < p_nmedium P / p_nsample P <= 1).
    { split; [apply Rdiv_lt_0_compat; lra|]. apply Rmult_le_reg_r with (p_nsample P); [lra|]. unfold Rdiv. rewrite Rmult_assoc, Rinv_l by lra. lra. }
    pose proof (SIN_bound (uniform tmin tmax (d_l2 D i))). fold x in H0. nra. }
  rewrite (proj2 (Rltb_false 1 (Rabs (p_nmedium P / p_nsample P * x)))) by (apply Rabs_le; exact B).
  exists (asin (p_nmedium P / p_nsample P * x)). split; [reflexivity|]. split; [|split].
  - unfold unit, vlen, dot. cbn [vx vy vz fst snd]. set (t := asin _). pose proof (sin2_cos2 t) as A. pose proof (sin2_cos2 ph) as B'. unfold Rsqr in A, B'.
    replace (sin t * cos ph * (sin t * cos ph) + sin t * sin ph * (sin t * sin ph) + cos t * cos t)
      with (sin t * sin t * (sin ph * sin ph + cos ph * cos ph) + cos t * cos t) by ring. rewrite B'. lra.
  - reflexivity.
  - apply sin_asin. exact B.
Qed.
Lemma fl_run n D : film_run nev n spot tmin tmax pmin pmax mu P D = calc_refl_trans 22 (d_rang D) (d_rstep D) P false 0 (map (fl_traj D) (seq 0 n)).
Proof.
  unfold film_run, initialize_film. cbv zeta. cbn [bind].
  rewrite (map_ext_in _ (fun i => (fl_pos D i, Some (fl_dir D i), repeat 1 nev))).
  - rewrite made_run by assumption. reflexivity.
  - intros i _. change (entry_dir _ _ _ _ _) with (fl_entry D i). destruct (fl_entry_some D i) as (th & E & _). rewrite E at 1. reflexivity.
Qed.
Lemma fl_first D i : nth 0 (t_dir (fl_traj D i)) vzero = fl_dir D i.
Proof. unfold fl_traj, made. cbn [t_dir]. destruct nev as [|n]; [lia|]. reflexivity. Qed.
Lemma fl_in D i : exists a, v_in P (film_view P (fl_traj D i)) = Some a /\ a <= PI / 2.
Proof.
  destruct (fl_entry_some D i) as (th & _ & _ & Hc & Hs).
  destruct HP as (Hb & _ & _ & _ & _ & Hp & _ & _ & _ & Hm & _).
  unfold v_in, film_view. cbn [v_first]. rewrite Hb. unfold film_exit_angle. cbn [select_col].
  replace (nth 0 (map vz (t_dir (fl_traj D i))) 0) with (cos th).
  2:{ rewrite <- Hc, <- (fl_first D i). symmetry. exact (map_nth vz (t_dir (fl_traj D i)) vzero 0). }
  unfold refraction.
  assert (E : Rabs (choose_n_tir P / p_nmedium P * sin (film_angle (cos th))) <= 1).
  { unfold film_angle. unfold choose_n_tir. rewrite Hp, (Rabs_pos_eq (p_nsample P)) by lra.
    assert (Cb : -1 <= Rabs (cos th) <= 1) by (pose proof (COS_bound th); split; [pose proof (Rabs_pos (cos th)); lra|apply Rabs_le; lra]).
    rewrite sin_acos by exact Cb. replace (1 - Rsqr (Rabs (cos th))) with (Rsqr (sin th)).
    2:{ rewrite <- Rsqr_abs. pose proof (sin2_cos2 th). lra. }
    rewrite sqrt_Rsqr_abs, Hs, Rabs_mult, Rabs_Rabsolu, Rabs_mult.
    rewrite (Rabs_pos_eq (p_nsample P / p_nmedium P)) by (left; apply Rdiv_lt_0_compat; lra).
    rewrite (Rabs_pos_eq (p_nmedium P / p_nsample P)) by (left; apply Rdiv_lt_0_compat; lra).
    match goal with |- ?e <= 1 => replace e with (Rabs (sin (uniform tmin tmax (d_l2 D i)))) by (field; lra) end.
    apply Rabs_le. apply SIN_bound. }
  rewrite (proj2 (Rltb_false 1 _) E). cbn [option_map]. eexists. split; [reflexivity|]. apply L_rough.film_angle_le.
Qed.
Lemma fl_views n D v : (forall n i, 0 <= d_u D n i < 1) -> v = map (film_view P) (map (fl_traj D) (seq 0 n)) ->
  (forall a, In a v -> wview a) /\ bad_in P false v = false /\ bad_angle P false v = false
  /\ forall t, In t (map (fl_traj D) (seq 0 n)) -> col_ok 1 t /\ (p_boundary P = film -> dirs_ok t).
Proof.
  intros Hu ->. assert (HT : forall t, In t (map (fl_traj D) (seq 0 n)) -> col_ok 1 t /\ (p_boundary P = film -> dirs_ok t)).
  { intros t Ht. apply in_map_iff in Ht. destruct Ht as (i & <- & Hi). apply in_seq in Hi.
    destruct (made_ok nev n mu (p_muabs P) D (fl_pos D) (fl_dir D) i) as [A B]; try assumption; [apply HP|lia|].
    split; [exact A|]. intros _. apply B. destruct (fl_entry_some D i) as (th & _ & U & _). exact U. }
  destruct HP as (Hb & _ & Hg & _). rewrite map_map. split; [|split; [|split; [|exact HT]]].
  - intros a Ha. apply in_map_iff in Ha. destruct Ha as (i & <- & Hi). apply film_view_ok; [exact Hg|].
    apply (HT (fl_traj D i)). now apply in_map.
  - unfold bad_in. cbn [negb andb]. rewrite map_map. generalize (seq 0 n). intros l; induction l as [|i l IH]; [reflexivity|].
    cbn [map existsb]. destruct (fl_in D i) as (a & -> & _). exact IH.
  - unfold bad_angle. cbn [negb andb]. rewrite !map_map.
    assert (A : forall f, (forall i, f i <= PI / 2) -> existsb past (map f (seq 0 n)) = false).
    { intros f Hle. generalize (seq 0 n). intros l; induction l as [|i l IH]; [reflexivity|]. cbn [map existsb]. rewrite IH.
      unfold past. rewrite (proj2 (Rltb_false (PI / 2) (f i))) by apply Hle. reflexivity. }
    assert (Fa : forall x, film_angle x <= PI / 2) by apply L_rough.film_angle_le.
    rewrite !A; [reflexivity| | |].
    + intros i. unfold film_view, L_meta.exit_angle. cbn [v_at]. rewrite Hb. apply Fa.
    + intros i. unfold film_view, L_meta.exit_angle. cbn [v_ar]. rewrite Hb. apply Fa.
    + intros i. destruct (fl_in D i) as (a & -> & Hle). exact Hle.
Qed.
Lemma fl_nt : choose_n_tir P = p_nsample P.
Proof. destruct HP as (_ & _ & _ & _ & _ & Hp & _ & _ & _ & Hm & _). unfold choose_n_tir. rewrite Hp. apply Rabs_pos_eq. lra. Qed.
(** The light let through: a sum over the trajectories, also when NaN. *)
Lemma fl_split n D : (0 < n)%nat -> (forall n i, 0 <= d_u D n i < 1) ->
  front_of (film_run nev n spot tmin tmax pmin pmax mu P D) = total (map (fun i => c_rp P false (film_view P (fl_traj D i))) (seq 0 n)) / INR n
  /\ back_of (film_run nev n spot tmin tmax pmin pmax mu P D) = total (map (fun i => c_tp P false (film_view P (fl_traj D i))) (seq 0 n)) / INR n.
Proof.
  intros Hpos Hu. assert (HI : 0 < INR n) by now apply lt_0_INR. rewrite fl_run.
  destruct (fl_views n D _ Hu eq_refl) as (V1 & V2 & V3 & _). pose proof fl_nt as Ent.
  destruct HP as (Hb & Hr & Hg & Hk1 & Hk2 & Hp & Hz & Hth & Ha & Hm & Hf & Hbk). rewrite crt_view by assumption.
  assert (F : forall g, total (map (fun i => g (film_view P (fl_traj D i))) (seq 0 n)) = total (map g (map (film_view P) (map (fl_traj D) (seq 0 n))))) by (intros g; now rewrite !map_map).
  rewrite (F (c_rp P false)), (F (c_tp P false)). clear F.
  set (v := map (film_view P) (map (fl_traj D) (seq 0 n))) in *.
  assert (Lv : length v = n) by (unfold v; now rewrite !map_length, seq_length).
  pose proof (answer_closed P false Hk1 Hk2 v) as A. rewrite V2, V3 in A.
  destruct (view_result P false v) as [[o|]|e] eqn:E.
  - destruct (view_pass P v o Hk1 Hk2 E) as [E1 E2]. unfold front_of, back_of. rewrite E1, E2, Lv. change (fold_right Rplus 0) with total. 
    unfold Rdiv. rewrite !total_map_times. split; reflexivity.
  - cbn [answer] in A. destruct (bad_known P false v) eqn:B3; [|discriminate].
    unfold bad_known in B3. rewrite Hb in B3. apply Reqb_true in B3. unfold c_known in B3. cbn [front_of back_of].
    assert (Z : forall l, (forall a, In a l -> In a v) -> 0 <= total (map (fun a => c_ab P false a + c_rp P false a + c_tp P false a) l)
       /\ (total (map (fun a => c_ab P false a + c_rp P false a + c_tp P false a) l) = 0 -> total (map (c_rp P false) l) = 0 /\ total (map (c_tp P false) l) = 0)).
    { induction l as [|a l IH]; intros Hl; cbn [map total]; [lra|].
      destruct (c_range P false v ltac:(lra) ltac:(lra) Hf Hbk V3 a (Hl a (or_introl eq_refl)) (V1 a (Hl a (or_introl eq_refl)))) as (R1 & R2 & _ & _ & _ & R3 & _).
      destruct IH as [I1 I2]; [intros; apply Hl; now right|]. split; [lra|]. intros H. destruct I2 as [J1 J2]; lra. }
    destruct (Z v (fun a H => H)) as [_ Z2]. destruct (Z2 B3) as [-> ->]. unfold Rdiv. split; ring.
  - cbn [answer] in A. destruct (bad_known P false v); discriminate.
Qed.
Lemma fl_average K dr n t : (0 < n)%nat -> (forall s n i, 0 <= d_u (dr s) n i < 1) ->
  let run n D := film_run nev n spot tmin tmax pmin pmax mu P D in
  front_of (run n (many K dr t)) = sums K (fun s => front_of (run 1%nat (dr s))) n t / INR n
  /\ back_of (run n (many K dr t)) = sums K (fun s => back_of (run 1%nat (dr s))) n t / INR n.
Proof.
  intros Hpos HD run. unfold run. destruct (fl_split n (many K dr t) Hpos) as [-> ->]; [intros m i; apply HD|]. unfold sums.
  split; f_equal; f_equal; apply map_ext; intros i; destruct (fl_split 1 (dr (numbers_of K t i)) ltac:(lia) (HD _)) as [Er Et]; [rewrite Er|rewrite Et];
    cbn [seq map total]; change (INR 1) with 1; unfold Rdiv; rewrite Rinv_1, Rmult_1_r, Rplus_0_r; reflexivity.
Qed.
End Film.

(** *** What the films share *)
Section Bias.
Variables (nev : nat) (spot tmin tmax pmin pmax mu : R) (P : params).
Hypothesis (Hn : (0 < nev)%nat) (Hmu : 0 < mu) (HP : plain_film P) (Hfd : full_detection P) (Hv : valid_params P 1).
Local Notation run n D := (film_run nev n spot tmin tmax pmin pmax mu P D).
Local Notation V D i := (film_view P (fl_traj nev spot tmin tmax pmin pmax mu P D i)).
Lemma fl_answer n D o : (0 < n)%nat -> (forall n i, 0 <= d_u D n i < 1) -> run n D = Ok (Some o) ->
  let v := map (fun i => V D i) (seq 0 n) in
  seen P false v /\ bad_known P false v = false /\ INR n * o_refl o = total (map (own_r P false) v) + shared_r P false v
  /\ INR n * o_trans o = total (map (own_t P false) v) + shared_t P false v
  /\ INR n * sent_back_of (Ok (Some o)) = back_r P false v + back_t P false v.
Proof.
  intros Hpos Hu E v. assert (HI : 0 < INR n) by now apply lt_0_INR.
  destruct (fl_views nev spot tmin tmax pmin pmax mu P Hn Hmu HP n D _ Hu eq_refl) as (V1 & V2 & V3 & HT).
  pose proof (fl_nt P HP) as Ent.
  pose proof (fl_run nev spot tmin tmax pmin pmax mu P Hn Hmu HP n D) as Er. rewrite Er in E.
  destruct HP as (Hb & Hr & Hg & Hk1 & Hk2 & Hp & Hz & Hth & Ha & Hm & Hf & Hbk).
  set (trs := map (fl_traj nev spot tmin tmax pmin pmax mu P D) (seq 0 n)) in *.
  assert (Ln : length trs = n) by (unfold trs; now rewrite map_length, seq_length).
  assert (Hvn : valid_params P n).
  { unfold valid_params in Hv |- *. destruct Hv as (A & B & C & F & G & H & J & K & L). repeat (split; try assumption); intros kr Hkr; congruence. }
  assert (Hle : Rabs (p_nsample P) <= choose_n_tir P) by (rewrite Ent, Rabs_pos_eq; lra).
  pose proof (call_seen 21 _ _ P false 0 trs o ltac:(rewrite Ln; exact Hvn) Hr Hg Hk1 Hk2 Hfd Hle HT E) as Sn.
  destruct (answered P false 21 _ _ 0 _ o Hr Hg Hk1 Hk2 E) as (_ & _ & B3 & ER & ET).
  assert (Ev : map (film_view P) trs = v) by (unfold v, trs; now rewrite map_map). rewrite Ev in *.
  assert (Lv : length v = n) by (unfold v; now rewrite map_length, seq_length).
  destruct (R_split P false v ltac:(lia) Sn) as [QR QT]. rewrite Lv, <- ER in QR. rewrite Lv, <- ET in QT.
  split; [exact Sn|]. split; [exact B3|]. split; [exact QR|]. split; [exact QT|].
  rewrite crt_view, Ev in E by assumption. destruct (fresnel_closed P false v o Hk1 Hk2 E) as [F1 F2].
  unfold sent_back_of. rewrite F1, F2, Lv. change (fold_right Rplus 0) with total. unfold Rdiv. rewrite !total_map_times.
  unfold back_r, back_t. field. lra.
Qed.
Lemma fl_answers n D : (0 < n)%nat -> (forall n i, 0 <= d_u D n i < 1) ->
  bad_known P false (map (fun i => V D i) (seq 0 n)) = false -> exists o, run n D = Ok (Some o).
Proof.
  intros Hpos Hu B. destruct (fl_views nev spot tmin tmax pmin pmax mu P Hn Hmu HP n D _ Hu eq_refl) as (V1 & V2 & V3 & HT).
  rewrite (fl_run nev spot tmin tmax pmin pmax mu P Hn Hmu HP n D).
  destruct HP as (Hb & Hr & Hg & Hk1 & Hk2 & _).
  destruct (answer_ok P false 21 (d_rang D) (d_rstep D) 0 (map (fl_traj nev spot tmin tmax pmin pmax mu P D) (seq 0 n)) Hr Hg Hk1 Hk2 V2 V3) as (o & E & _).
  - rewrite map_map. exact B.
  - exists o. exact E.
Qed.
Lemma fl_view_many K dr t i : V (many K dr t) i = V (dr (numbers_of K t i)) 0%nat.
Proof. reflexivity. Qed.
Lemma fl_close K dr n t : (0 < n)%nat -> (forall s n i, 0 <= d_u (dr s) n i < 1) -> (forall s, exists o, run 1%nat (dr s) = Ok (Some o)) ->
  Rabs (refl_of (run n (many K dr t)) - sums K (fun s => refl_of (run 1%nat (dr s))) n t / INR n) <= sums K (fun s => sent_back_of (run 1%nat (dr s))) n t / INR n
  /\ Rabs (trans_of (run n (many K dr t)) - sums K (fun s => trans_of (run 1%nat (dr s))) n t / INR n) <= sums K (fun s => sent_back_of (run 1%nat (dr s))) n t / INR n.
Proof.
  intros Hpos Hu Hone. assert (HI : 0 < INR n) by now apply lt_0_INR. pose proof (fl_nt P HP) as Ent.
  assert (Q : forall l, (forall i, In i l -> True) -> l <> nil ->
     let v := map (fun i => V (many K dr t) i) l in
     seen P false v /\ bad_known P false v = false
     /\ Rabs (shared_r P false v + total (map (own_r P false) v) - total (map (fun i => refl_of (run 1%nat (dr (numbers_of K t i)))) l)) <= back_r P false v + back_t P false v
     /\ Rabs (shared_t P false v + total (map (own_t P false) v) - total (map (fun i => trans_of (run 1%nat (dr (numbers_of K t i)))) l)) <= back_r P false v + back_t P false v
     /\ total (map (fun i => sent_back_of (run 1%nat (dr (numbers_of K t i)))) l) = back_r P false v + back_t P false v).
  { assert (HP' := HP). destruct HP' as (_ & _ & _ & _ & _ & _ & _ & _ & _ & Hm' & Hf & Hbk).
    assert (Hm : 0 < p_nmedium P) by lra. assert (Ht : 0 < choose_n_tir P) by lra.
    intros l _ Hl v.
    assert (W : seen P false v /\ bad_known P false v = false /\
      exists x y, total (map (fun i => refl_of (run 1%nat (dr (numbers_of K t i)))) l) = total (map (own_r P false) v) + x
       /\ total (map (fun i => trans_of (run 1%nat (dr (numbers_of K t i)))) l) = total (map (own_t P false) v) + y
       /\ 0 <= x <= back_r P false v + back_t P false v /\ 0 <= y <= back_r P false v + back_t P false v
       /\ total (map (fun i => sent_back_of (run 1%nat (dr (numbers_of K t i)))) l) = back_r P false v + back_t P false v).
    { unfold v. clear v. induction l as [|i l IH]; [congruence|]. clear Hl.
      destruct (Hone (numbers_of K t i)) as (o & Eo). 
      destruct (fl_answer 1 (dr (numbers_of K t i)) o ltac:(lia) (Hu _) Eo) as (S1 & B1 & R1 & T1 & F1). change (INR 1) with 1 in R1, T1, F1.
      cbn [seq map total] in S1, B1, R1, T1, F1. rewrite <- fl_view_many in S1, B1, R1, T1, F1.
      set (a := V (many K dr t) i) in *. destruct (shared_range P false Hm Ht Hf Hbk (cons a nil) S1 B1) as [U1 U2].
      assert (Z1 : total (map (own_r P false) (cons a nil)) = own_r P false a) by (cbn; lra).
      assert (Z2 : total (map (own_t P false) (cons a nil)) = own_t P false a) by (cbn; lra).
      destruct l as [|j l].
      - split; [exact S1|]. split; [exact B1|]. exists (shared_r P false (cons a nil)), (shared_t P false (cons a nil)).
        cbn [map]. fold a. rewrite Eo. cbn [refl_of trans_of]. cbn [map total] in *. repeat split; try lra.
      - destruct (IH ltac:(discriminate)) as (S2 & B2 & x & y & A1 & A2 & A3 & A4 & A5). clear IH.
        set (w := map (fun i => V (many K dr t) i) (j :: l)) in *.
        change (map (fun i0 => V (many K dr t) i0) (i :: j :: l)) with (cons a nil ++ w).
        split; [now apply seen_app|]. split; [now apply bad_known_app|].
        destruct (back_app P false (cons a nil) w) as [X1 X2]. rewrite X1, X2.
        exists (shared_r P false (cons a nil) + x), (shared_t P false (cons a nil) + y). rewrite !total_map_app.
        rewrite Z1, Z2.
        change (total (map ?f (i :: j :: l))) with (f i + total (map f (j :: l))).
        set (rest := j :: l) in *. cbv beta. rewrite A1, A2, A5, Eo. cbn [refl_of trans_of].
        repeat split; try lra. }
    destruct W as (S1 & B1 & x & y & A1 & A2 & A3 & A4 & A5). split; [exact S1|]. split; [exact B1|].
    destruct (shared_range P false Hm Ht Hf Hbk v S1 B1) as [U1 U2]. rewrite A1, A2.
    split; [apply Rabs_le; lra|]. split; [apply Rabs_le; lra|exact A5]. }
  destruct (Q (seq 0 n) (fun _ _ => Logic.I)) as (S1 & B1 & A1 & A2 & A3); [destruct n; [lia|discriminate]|].
  destruct (fl_answers n (many K dr t) Hpos ltac:(intros m i; apply Hu) B1) as (o & Eo).
  destruct (fl_answer n (many K dr t) o Hpos ltac:(intros m i; apply Hu) Eo) as (_ & _ & R1 & T1 & _).
  rewrite Eo. cbn [refl_of trans_of]. unfold sums. rewrite A3.
  assert (G : forall r s z f, INR n * r = s -> Rabs (s - z) <= f -> Rabs (r - z / INR n) <= f / INR n).
  { intros r s z f Es H. apply Rmult_le_reg_l with (INR n); [exact HI|].
    rewrite <- (Rabs_pos_eq (INR n)) at 1 by lra. rewrite <- Rabs_mult. replace (INR n * (r - z / INR n)) with (s - z) by (rewrite <- Es; field; lra).
    replace (INR n * (f / INR n)) with f by (field; lra). exact H. }
  split; eapply G; [rewrite R1, Rplus_comm; reflexivity|exact A1|rewrite T1, Rplus_comm; reflexivity|exact A2].
Qed.
End Bias.

(** ** Two trajectories of one event *)
Lemma cauchy a1 b1 a2 b2 : 0 < b1 -> 0 < b2 -> (a1 + a2) ^ 2 / (b1 + b2) = a1 ^ 2 / b1 + a2 ^ 2 / b2 - (a1 * b2 - a2 * b1) ^ 2 / (b1 * b2 * (b1 + b2)).
Proof. intros. field. lra. Qed.
Lemma ind_integral a b d : 0 <= a <= b -> b <= 1 -> is_RInt (fun x => if (Rltb a x && Rltb x b)%bool then d else 0) 0 1 (d * (b - a)).
Proof.
  intros Ha Hb. set (f := fun x => if (Rltb a x && Rltb x b)%bool then d else 0).
  assert (Q1 : is_RInt f 0 a (scal (a - 0) 0)).
  { apply (is_RInt_ext (fun _ => 0)); [|apply (is_RInt_const 0 a 0)]. rewrite Rmin_left, Rmax_right by lra. intros x Hx. unfold f.
    rewrite (proj2 (Rltb_false a x)) by lra. reflexivity. }
  assert (Q2 : is_RInt f a b (scal (b - a) d)).
  { apply (is_RInt_ext (fun _ => d)); [|apply (is_RInt_const a b d)]. rewrite Rmin_left, Rmax_right by lra. intros x Hx. unfold f.
    rewrite (proj2 (Rltb_true a x)), (proj2 (Rltb_true x b)) by lra. reflexivity. }
  assert (Q3 : is_RInt f b 1 (scal (1 - b) 0)).
  { apply (is_RInt_ext (fun _ => 0)); [|apply (is_RInt_const b 1 0)]. rewrite Rmin_left, Rmax_right by lra. intros x Hx. unfold f.
    rewrite (proj2 (Rltb_false x b)) by lra. now rewrite Bool.andb_false_r. }
  pose proof (is_RInt_Chasles f 0 b 1 _ _ (is_RInt_Chasles f 0 a b _ _ Q1 Q2) Q3) as Q.
  refine (eq_ind _ (fun v => is_RInt f 0 1 v) Q _ _). change ((a - 0) * 0 + (b - a) * d + (1 - b) * 0 = d * (b - a)). ring.
Qed.
Lemma box_mean a b c e d : 0 <= a <= b -> b <= 1 -> 0 <= c <= e -> e <= 1 ->
  is_mean 2 (fun t => if (Rltb a (t 0%nat) && Rltb (t 0%nat) b)%bool then (if (Rltb c (t 1%nat) && Rltb (t 1%nat) e)%bool then d else 0) else 0) (d * (e - c) * (b - a)).
Proof.
  intros H1 H2 H3 H4. exists (fun t => if (Rltb a (t 0%nat) && Rltb (t 0%nat) b)%bool then d * (e - c) else 0). split.
  - intros t. change (upd t 1) with (fun x i => if Nat.eqb i 1 then x else t i). cbn [Nat.eqb].
    destruct (Rltb a (t 0%nat) && Rltb (t 0%nat) b)%bool; [now apply ind_integral|].
    refine (eq_ind _ (fun v => is_RInt _ 0 1 v) (is_RInt_const 0 1 0) _ _). change ((1 - 0) * 0 = 0). ring.
  - exists (fun _ => d * (e - c) * (b - a)). split; [|intros t; reflexivity].
    intros t. change (upd t 0) with (fun x i => if Nat.eqb i 0 then x else t i). cbn [Nat.eqb]. now apply ind_integral.
Qed.

Section OneEvent.
Variables (spot pmin pmax mu : R) (P : params) (D : draws).
Hypothesis (Hmu : 0 < mu) (HP : plain_film P) (Hfd : full_detection P) (Hv : valid_params P 1) (Ha : 0 < p_muabs P).
Hypothesis (Hu : forall n i, 0 <= d_u D n i < 1).
Local Notation dr := (fun s : nat -> R => with_first_draws (fun _ => s 0%nat) D).
Local Notation I0 := (through (p_nmedium P) (p_nfront P) (p_nsample P)).
Local Notation x0 := (through (p_nsample P) (p_nback P) (p_nmedium P)).
Local Notation run n E := (film_run 1 n spot 0 0 pmin pmax mu P E).
Lemma fl_normal E i : fl_traj 1 spot 0 0 pmin pmax mu P E i = T 1 spot mu P E i.
Proof.
  unfold fl_traj, T. change (normal_traj 1 mu (p_muabs P) E ?p i) with (made 1 mu (p_muabs P) E p ez i).
  unfold fl_dir, fl_entry. replace (uniform 0 0 (d_l2 E i)) with 0 by (unfold uniform; ring). rewrite entry_normal. reflexivity.
Qed.
Lemma one_event E i : (forall n i, 0 <= d_u E n i < 1) ->
  let a := film_view P (T 1 spot mu P E i) in let w := exp (- (p_muabs P * step_of mu (d_u E 0 i))) in
  v_wr a = 0 /\ v_wt a = (if Rleb (p_thickness P) (step_of mu (d_u E 0 i)) then w else 0)
  /\ v_ws a = (if Rleb (p_thickness P) (step_of mu (d_u E 0 i)) then 0 else w)
  /\ (p_thickness P <= step_of mu (d_u E 0 i) -> v_at a = 0).
Proof.
  intros HE a w. pose proof (fl_nt P HP) as Ent.
  destruct HP as (Hb & Hr & Hg & Hk1 & Hk2 & Hp & Hz & Hth & Ha' & Hm & Hf & Hbk).
  assert (Hm' : 0 < p_nmedium P <= choose_n_tir P) by lra.
  destruct (T_ok 1 (S i) spot pmin pmax mu P E ltac:(lia) Hmu Ha' HE i ltac:(lia)) as (W & Dk & _).
  pose proof (T_exit 1 (S i) spot pmin pmax mu P E ltac:(lia) Hmu Ha' HE Hb Hz Hth Hm' i ltac:(lia)) as X.
  destruct (T_first 1 spot mu P E ltac:(lia) i) as (Z0 & Z1 & K0 & W0).
  set (t := T 1 spot mu P E i) in *. set (s := step_of mu (d_u E 0 i)) in *.
  assert (L1 : length (t_dir t) = 1%nat) by reflexivity.
  assert (S0 : 0 <= s) by (apply L_montecarlo.step_nonneg; [exact Hmu|apply HE]).
  unfold a. unfold film_view in X |- *. cbn [v_t v_wr v_wt v_ws v_at] in X |- *. rewrite Hb, Hz in *.
  destruct (find_valid_exits (choose_n_tir P) (p_nmedium P) (p_thickness P) 0 film t) as [[ps ng] ti] eqn:He.
  destruct (trajectory_outcome _ _ _ _ _ _ _ _ _ W He) as (r & tt & st & Hev & Ho). rewrite Hev in X |- *. cbn [i_refl i_trans i_stuck] in X |- *.
  pose proof (film_exit_characterised (choose_n_tir P) (p_nmedium P) (p_thickness P) 0 t ps ng ti 0 0 W Dk ltac:(lra) Hm' He ltac:(lia)) as Q.
  cbn zeta in Q. rewrite Z0, Z1 in Q. destruct Q as (_ & Qn & _); [unfold in_slab; lra|].
  rewrite L1 in Ho.
  destruct Ho as [(_ & _ & -> & -> & ->)|[(k & _ & Nk & Lk & _)|(k & _ & Pk & Lk & -> & -> & ->)]].
  - assert (Lt : s < p_thickness P) by (destruct (Rlt_dec s (p_thickness P)) as [L|L]; [exact L|]; exfalso; assert (0 = 1)%nat by (apply X; lra); lia).
    rewrite (proj2 (Rleb_false (p_thickness P) s)) by exact Lt. split; [reflexivity|]. split; [reflexivity|]. split; [exact W0|lra].
  - exfalso. assert (k = 0%nat) as -> by lia. apply Qn in Nk. destruct Nk as [_ [[_ B]|[B _]]]; [lra|discriminate].
  - assert (k = 0%nat) as -> by lia. assert (Le : p_thickness P <= s) by (apply X; reflexivity).
    rewrite (proj2 (Rleb_true (p_thickness P) s)) by exact Le. split; [reflexivity|]. split; [exact W0|]. split; [reflexivity|].
    intros _. unfold L_meta.exit_angle. rewrite Hb. unfold film_exit_angle. cbn [select_col].
    assert (KZ : nth 0 (map vz (t_dir t)) 0 = 1) by (etransitivity; [exact (map_nth vz (t_dir t) vzero 0)|]; rewrite K0; reflexivity).
    rewrite KZ. apply film_angle_ez.
Qed.
(** The weights of a trajectory, by its step. *)
Definition wt (u : R) : R := exp (- (p_muabs P * step_of mu (frac_part u))).
Definition cr (u : R) : bool := Rleb (p_thickness P) (step_of mu (frac_part u)).
Definition tpw (u : R) : R := if cr u then I0 * x0 * wt u else 0.
Definition kn (u : R) : R := I0 * (1 - wt u) + tpw u.
Lemma one_weights E i u : (forall n i, 0 <= d_u E n i < 1) -> d_u E 0 i = frac_part u ->
  let a := film_view P (T 1 spot mu P E i) in
  c_rp P false a = 0 /\ c_rf P false a = 0 /\ c_tp P false a = tpw u /\ x0 * c_tf P false a = (1 - x0) * tpw u
  /\ c_ab P false a + c_rp P false a + c_tp P false a = kn u.
Proof.
  intros HE Eu a. destruct (one_event E i HE) as (A1 & A2 & A3 & A4). fold a in A1, A2, A3, A4. rewrite Eu in A2, A3, A4.
  fold (cr u) in A2, A3. fold (wt u) in A2, A3.
  assert (Ei : v_inc P false a = I0).
  { unfold v_inc. unfold a. rewrite (T_in 1 spot mu P E) by (lia || apply HP). cbn [nan_to_num]. rewrite (fl_nt P HP).
    destruct HP as (Hb & Hr & Hg & Hk1 & Hk2 & Hp & Hz & Hth & Ha' & Hm & Hf & Hbk). apply pf1_normal; assumption || lra. }
  assert (Ex : cr u = true -> pf1 (choose_n_tir P) (p_nback P) (p_nmedium P) (v_at a) = x0).
  { intros H. rewrite A4 by (now apply Rleb_true). rewrite (fl_nt P HP).
    destruct HP as (Hb & Hr & Hg & Hk1 & Hk2 & Hp & Hz & Hth & Ha' & Hm & Hf & Hbk). apply pf1_normal; assumption || lra. }
  unfold c_ab, c_rf, c_tf, c_rp, c_tp, c_rw, c_tw, c_sw, kn, tpw. rewrite Ei, A1, A2, A3.
  destruct (cr u); [rewrite Ex by reflexivity|]; repeat split; ring.
Qed.
Lemma wt_range u : 0 < u < 1 -> 0 < wt u < 1.
Proof.
  intros Hu'. split; [apply exp_pos|]. unfold wt. rewrite <- exp_0. apply exp_increasing.
  assert (Fr : frac_part u = u) by (unfold frac_part; rewrite (Int_part_unique u 0) by lra; lra). rewrite Fr.
  assert (0 < step_of mu u).
  { unfold step_of. apply Rdiv_lt_0_compat; [|exact Hmu]. assert (ln (1 - u) < ln 1) by (apply ln_increasing; lra). rewrite ln_1 in H. lra. }
  assert (0 < p_muabs P * step_of mu u) by now apply Rmult_lt_0_compat. lra.
Qed.
Lemma surf_range : 0 < I0 <= 1 /\ 0 < x0 < 1.
Proof.
  destruct HP as (Hb & Hr & Hg & Hk1 & Hk2 & Hp & Hz & Hth & Ha' & Hm & Hf & Hbk).
  split; [apply through_range; assumption || lra|]. split; [apply through_range; assumption || lra|].
  rewrite <- pf1_normal by (assumption || lra). apply pf1_bounds; try assumption; try lra. pose proof PI_RGT_0. lra.
Qed.
Lemma kn_range u : 0 < u < 1 -> 0 <= tpw u /\ 0 < kn u <= I0.
Proof.
  intros H. pose proof (wt_range u H) as W. destruct surf_range as [R1 R2]. unfold kn, tpw.
  assert (0 < I0 * wt u) by (apply Rmult_lt_0_compat; lra). assert (0 < I0 * x0 * wt u) by (apply Rmult_lt_0_compat; [apply Rmult_lt_0_compat|]; lra).
  assert (I0 * x0 * wt u < I0 * wt u) by (apply Rlt_le_trans with (I0 * wt u * 1); [replace (I0 * x0 * wt u) with (I0 * wt u * x0) by ring; apply Rmult_lt_compat_l; lra|lra]).
  assert (0 < I0 * (1 - wt u)) by (apply Rmult_lt_0_compat; lra).
  destruct (cr u); lra.
Qed.
Lemma one_step t : inside 2 t ->
  2 * refl_of (run 2%nat (many 1 dr t)) + (1 - x0) / x0 * ((tpw (t 0%nat) * kn (t 1%nat) - tpw (t 1%nat) * kn (t 0%nat)) ^ 2 / (kn (t 0%nat) * kn (t 1%nat) * (kn (t 0%nat) + kn (t 1%nat))))
  = refl_of (run 1%nat (dr (numbers_of 1 t 0))) + refl_of (run 1%nat (dr (numbers_of 1 t 1))).
Proof.
  intros Ht. assert (H0 : 0 < t 0%nat < 1) by (apply Ht; lia). assert (H1 : 0 < t 1%nat < 1) by (apply Ht; lia).
  destruct surf_range as [RI RX].
  assert (Gd : forall s n i, 0 <= d_u (with_first_draws s D) n i < 1).
  { intros s [|n] i; cbn [d_u with_first_draws]; [pose proof (base_fp (s i)); lra|apply Hu]. }
  set (V i := film_view P (T 1 spot mu P (many 1 dr t) i)).
  assert (Gm : forall n i, 0 <= d_u (many 1 dr t) n i < 1) by (intros n i; apply (Gd (fun _ => numbers_of 1 t i 0%nat))).
  assert (N0 : numbers_of 1 t 0 0%nat = t 0%nat) by reflexivity. assert (N1 : numbers_of 1 t 1 0%nat = t 1%nat) by reflexivity.
  assert (C0 := one_weights (many 1 dr t) 0 (t 0%nat) Gm eq_refl). assert (C1 := one_weights (many 1 dr t) 1 (t 1%nat) Gm eq_refl). change (film_view P (T 1 spot mu P (many 1 dr t) 0)) with (V 0%nat) in C0. change (film_view P (T 1 spot mu P (many 1 dr t) 1)) with (V 1%nat) in C1.
  cbv zeta in C0, C1.
  destruct (kn_range _ H0) as [P0 K0]. destruct (kn_range _ H1) as [P1 K1].
  set (p0 := tpw (t 0%nat)) in *. set (p1 := tpw (t 1%nat)) in *. set (k0 := kn (t 0%nat)) in *. set (k1 := kn (t 1%nat)) in *.
  destruct C0 as (a1 & a2 & a3 & a4 & a5). destruct C1 as (b1 & b2 & b3 & b4 & b5).
  assert (Hb : p_boundary P = film) by apply HP.
  assert (F : forall n E o, (0 < n)%nat -> (forall n i, 0 <= d_u E n i < 1) -> run n E = Ok (Some o) ->
     let v := map (fun i => film_view P (T 1 spot mu P E i)) (seq 0 n) in INR n * o_refl o = total (map (own_r P false) v) + shared_r P false v).
  { intros n E o Hn HE Eo. destruct (fl_answer 1 spot 0 0 pmin pmax mu P ltac:(lia) Hmu HP Hfd Hv n E o Hn HE Eo) as (_ & _ & Q & _).
    rewrite (map_ext _ (fun i => film_view P (T 1 spot mu P E i))) in Q by (intros i; now rewrite fl_normal). exact Q. }
  assert (X : forall n E, (0 < n)%nat -> (forall n i, 0 <= d_u E n i < 1) ->
     c_known P false (map (fun i => film_view P (T 1 spot mu P E i)) (seq 0 n)) <> 0 -> exists o, run n E = Ok (Some o)).
  { intros n E Hn HE Hk. apply (fl_answers 1 spot 0 0 pmin pmax mu P ltac:(lia) Hmu HP n E Hn HE).
    rewrite (map_ext _ (fun i => film_view P (T 1 spot mu P E i))) by (intros i; now rewrite fl_normal).
    unfold bad_known. rewrite Hb. now apply Reqb_false. }
  assert (Kn : forall v, c_known P false v = total (map (fun a => c_ab P false a + c_rp P false a + c_tp P false a) v)) by reflexivity.
  destruct (X 2%nat (many 1 dr t) ltac:(lia) Gm) as (o2 & E2).
  { cbn [seq map]. change (film_view P (T 1 spot mu P (many 1 dr t) 0)) with (V 0%nat). change (film_view P (T 1 spot mu P (many 1 dr t) 1)) with (V 1%nat). rewrite Kn. cbn [map total]. rewrite a5, b5. lra. }
  destruct (X 1%nat (dr (numbers_of 1 t 0)) ltac:(lia) (Gd _)) as (oa & Ea).
  { cbn [seq map]. change (film_view P (T 1 spot mu P (with_first_draws (fun _ => numbers_of 1 t 0 0%nat) D) 0)) with (V 0%nat). rewrite Kn. cbn [map total]. rewrite a5. lra. }
  destruct (X 1%nat (dr (numbers_of 1 t 1)) ltac:(lia) (Gd _)) as (ob & Eb).
  { cbn [seq map]. change (film_view P (T 1 spot mu P (with_first_draws (fun _ => numbers_of 1 t 1 0%nat) D) 0)) with (V 1%nat). rewrite Kn. cbn [map total]. rewrite b5. lra. }
  pose proof (F 2%nat _ _ ltac:(lia) Gm E2) as F2. pose proof (F 1%nat _ _ ltac:(lia) (Gd _) Ea) as Fa. pose proof (F 1%nat _ _ ltac:(lia) (Gd _) Eb) as Fb.
  cbn [seq map] in F2, Fa, Fb. change (film_view P (T 1 spot mu P (many 1 dr t) 0)) with (V 0%nat) in F2. change (film_view P (T 1 spot mu P (many 1 dr t) 1)) with (V 1%nat) in F2.
  change (film_view P (T 1 spot mu P (with_first_draws (fun _ => numbers_of 1 t 0 0%nat) D) 0)) with (V 0%nat) in Fa.
  change (film_view P (T 1 spot mu P (with_first_draws (fun _ => numbers_of 1 t 1 0%nat) D) 0)) with (V 1%nat) in Fb.
  rewrite Ea, Eb, E2. cbn [refl_of].
  unfold shared_r in F2, Fa, Fb. rewrite Hb in F2, Fa, Fb. unfold back_r, back_t, c_rfrac, c_tfrac in F2, Fa, Fb. rewrite !Kn in F2, Fa, Fb.
  cbn [map total] in F2, Fa, Fb. rewrite a5, b5, a1, a2, a3, b1, b2, b3 in F2. rewrite a5, a1, a2, a3 in Fa. rewrite b5, b1, b2, b3 in Fb.
  assert (a4' : c_tf P false (V 0%nat) = (1 - x0) / x0 * p0) by (apply Rmult_eq_reg_l with x0; [rewrite a4; field; lra|lra]).
  assert (b4' : c_tf P false (V 1%nat) = (1 - x0) / x0 * p1) by (apply Rmult_eq_reg_l with x0; [rewrite b4; field; lra|lra]).
  rewrite a4', b4' in F2. rewrite a4' in Fa. rewrite b4' in Fb.
  change (INR 2) with (1 + 1) in F2. change (INR 1) with 1 in Fa, Fb.
  set (q := (1 - x0) / x0) in *. set (y0 := own_r P false (V 0%nat)) in *. set (y1 := own_r P false (V 1%nat)) in *.
  assert (G2 : 2 * o_refl o2 = y0 + y1 + q * ((p0 + p1) ^ 2 / (k0 + k1))) by (transitivity ((1 + 1) * o_refl o2); [ring|]; rewrite F2; field; lra).
  assert (Ga : o_refl oa = y0 + q * (p0 ^ 2 / k0)) by (transitivity (1 * o_refl oa); [ring|]; rewrite Fa; field; lra).
  assert (Gb : o_refl ob = y1 + q * (p1 ^ 2 / k1)) by (transitivity (1 * o_refl ob); [ring|]; rewrite Fb; field; lra).
  rewrite G2, Ga, Gb, (cauchy p0 k0 p1 k1) by lra. ring.
Qed.

Lemma frac_in u : 0 < u < 1 -> frac_part u = u.
Proof. intros H. unfold frac_part. rewrite (Int_part_unique u 0) by lra. lra. Qed.
Lemma step_mono u v : 0 < u <= v -> v < 1 -> step_of mu u <= step_of mu v.
Proof.
  intros H1 H2. unfold step_of, Rdiv. apply Rmult_le_compat_r; [left; now apply Rinv_0_lt_compat|].
  assert (ln (1 - v) <= ln (1 - u)) by (apply Rcomplements.ln_le; lra). lra.
Qed.
Lemma wt_mono u v : 0 < u <= v -> v < 1 -> wt v <= wt u.
Proof.
  intros H1 H2. unfold wt. rewrite !frac_in by lra. pose proof (step_mono u v H1 H2) as S.
  assert (L : - (p_muabs P * step_of mu v) <= - (p_muabs P * step_of mu u)) by (apply Ropp_le_contravar, Rmult_le_compat_l; lra).
  destruct (Rle_lt_or_eq_dec _ _ L) as [L'| ->]; [left; now apply exp_increasing|lra].
Qed.
Lemma step_at d : 0 <= d -> step_of mu (1 - exp (- (mu * d))) = d.
Proof. intros Hd. unfold step_of. replace (1 - (1 - exp (- (mu * d)))) with (exp (- (mu * d))) by ring. rewrite ln_exp. field. lra. Qed.
Lemma step_strict u v : 0 < u < v -> v < 1 -> step_of mu u < step_of mu v.
Proof.
  intros H1 H2. unfold step_of, Rdiv. apply Rmult_lt_compat_r; [now apply Rinv_0_lt_compat|].
  assert (ln (1 - v) < ln (1 - u)) by (apply ln_increasing; lra). lra.
Qed.
Lemma biased m m' : is_mean 1 (fun s => refl_of (run 1%nat (dr s))) m -> is_mean 2 (fun t => refl_of (run 2%nat (many 1 dr t))) m' -> m' < m.
Proof.
  intros M1 M2. destruct surf_range as [RI RX].
  assert (Hth : 0 < p_thickness P) by (destruct HP as (_ & _ & _ & _ & _ & _ & _ & H & _); exact H).
  set (u0 := 1 - exp (- (mu * p_thickness P))).
  assert (Hu0 : 0 < u0 < 1).
  { unfold u0. pose proof (exp_pos (- (mu * p_thickness P))).
    assert (exp (- (mu * p_thickness P)) < exp 0) by (apply exp_increasing; assert (0 < mu * p_thickness P) by (now apply Rmult_lt_0_compat); lra).
    rewrite exp_0 in H0. lra. }
  set (b := (1 + u0) / 2). set (c := u0 / 2).
  assert (Hb : u0 < b < 1) by (unfold b; lra). assert (Hc : 0 < c < u0) by (unfold c; lra).
  pose proof (wt_range b ltac:(lra)) as Wb. pose proof (wt_range c ltac:(lra)) as Wc.
  set (q := (1 - x0) / x0). assert (Hq : 0 < q) by (apply Rdiv_lt_0_compat; lra).
  set (pb := I0 * x0 * wt b). assert (Hpb : 0 < pb) by (unfold pb; apply Rmult_lt_0_compat; [apply Rmult_lt_0_compat|]; lra).
  set (kc := I0 * (1 - wt c)). assert (Hkc : 0 < kc) by (unfold kc; apply Rmult_lt_0_compat; lra).
  set (g := q * (pb ^ 2 * kc / (2 * I0 ^ 2))).
  assert (HI2 : 0 < I0 ^ 2) by (apply pow_lt; lra).
  assert (Hg : 0 < g).
  { unfold g. apply Rmult_lt_0_compat; [exact Hq|]. apply Rdiv_lt_0_compat; [apply Rmult_lt_0_compat; [apply pow_lt; exact Hpb|exact Hkc]|lra]. }
  set (F1 := fun s : nat -> R => refl_of (run 1%nat (dr s))) in *.
  assert (A : is_mean 2 (fun t => sums 1 F1 2 t / INR 2) m) by (apply (average_mean 1 F1 m 2); [lia|reflexivity|exact M1]).
  pose proof (is_mean_scal 2 (-1) _ _ (box_mean u0 b c u0 (g / 2) ltac:(lra) ltac:(lra) ltac:(lra) ltac:(lra))) as B.
  pose proof (is_mean_plus 2 _ _ _ _ A B) as AB.
  assert (L : m' <= m + -1 * (g / 2 * (u0 - c) * (b - u0))).
  { refine (is_mean_le 2 _ _ _ _ _ M2 AB). intros t Ht. pose proof (one_step t Ht) as E.
    assert (H0 : 0 < t 0%nat < 1) by (apply Ht; lia). assert (H1 : 0 < t 1%nat < 1) by (apply Ht; lia).
    destruct (kn_range _ H0) as [P0 K0]. destruct (kn_range _ H1) as [P1 K1].
    change (refl_of (run 1%nat (dr (numbers_of 1 t 0)))) with (F1 (numbers_of 1 t 0)) in E.
    change (refl_of (run 1%nat (dr (numbers_of 1 t 1)))) with (F1 (numbers_of 1 t 1)) in E.
    set (gap := (tpw (t 0%nat) * kn (t 1%nat) - tpw (t 1%nat) * kn (t 0%nat)) ^ 2 / (kn (t 0%nat) * kn (t 1%nat) * (kn (t 0%nat) + kn (t 1%nat)))) in *.
    assert (G0 : 0 <= gap).
    { unfold gap. apply Rmult_le_pos; [apply pow2_ge_0|]. left. apply Rinv_0_lt_compat. apply Rmult_lt_0_compat; [apply Rmult_lt_0_compat|]; lra. }
    assert (S2 : sums 1 F1 2 t / INR 2 = (F1 (numbers_of 1 t 0) + F1 (numbers_of 1 t 1)) / 2).
    { unfold sums. cbn [seq map total]. change (INR 2) with (1 + 1). unfold Rdiv. rewrite Rplus_0_r. reflexivity. }
    rewrite S2. fold q in E.
    assert (Gq : 0 <= q * gap) by (apply Rmult_le_pos; lra).
    destruct (Rltb u0 (t 0%nat) && Rltb (t 0%nat) b)%bool eqn:B0; [|lra].
    destruct (Rltb c (t 1%nat) && Rltb (t 1%nat) u0)%bool eqn:B1; [|lra].
    apply Bool.andb_true_iff in B0. apply Bool.andb_true_iff in B1. destruct B0 as [B0 B0']. destruct B1 as [B1 B1'].
    apply Rltb_true in B0, B0', B1, B1'.
    assert (C0 : cr (t 0%nat) = true).
    { unfold cr. rewrite frac_in by exact H0. apply Rleb_true. rewrite <- (step_at (p_thickness P)) by lra. apply step_mono; fold u0; lra. }
    assert (C1 : cr (t 1%nat) = false).
    { unfold cr. rewrite frac_in by exact H1. apply Rleb_false. rewrite <- (step_at (p_thickness P)) by lra. apply step_strict; fold u0; lra. }
    assert (Gg : g <= q * gap); [|lra].
    unfold g. apply Rmult_le_compat_l; [lra|]. unfold gap.
    assert (T1 : tpw (t 1%nat) = 0) by (unfold tpw; now rewrite C1).
    assert (T0 : pb <= tpw (t 0%nat)).
    { unfold tpw, pb. rewrite C0. apply Rmult_le_compat_l; [left; apply Rmult_lt_0_compat; lra|]. apply wt_mono; lra. }
    assert (T2 : kc <= kn (t 1%nat)).
    { unfold kn, kc. rewrite T1, Rplus_0_r. apply Rmult_le_compat_l; [lra|]. pose proof (wt_mono c (t 1%nat) ltac:(lra) ltac:(lra)). lra. }
    rewrite T1. set (p0 := tpw (t 0%nat)) in *. set (k0 := kn (t 0%nat)) in *. set (k1 := kn (t 1%nat)) in *.
    replace ((p0 * k1 - 0 * k0) ^ 2 / (k0 * k1 * (k0 + k1))) with (p0 ^ 2 * k1 / (k0 * (k0 + k1))) by (field; lra).
    assert (pb ^ 2 <= p0 ^ 2) by (apply pow_incr; lra).
    unfold Rdiv. apply Rmult_le_compat.
    - apply Rmult_le_pos; [apply pow2_ge_0|lra].
    - left. apply Rinv_0_lt_compat. lra.
    - apply Rmult_le_compat; try lra. apply pow2_ge_0.
    - apply Rinv_le_contravar; [apply Rmult_lt_0_compat; lra|]. replace (2 * I0 ^ 2) with (I0 * (I0 + I0)) by ring. apply Rmult_le_compat; lra. }
  assert (0 < g / 2 * (u0 - c) * (b - u0)) by (apply Rmult_lt_0_compat; [apply Rmult_lt_0_compat|]; lra). lra.
Qed.

(** *** The means exist *)
Definition st (u : R) : R := if cr u then 0 else I0 * wt u.
Definition base : R := detect1 (p_nmedium P) (p_nmedium P) (p_detection P) 0 (1 - I0).
Lemma one_own E i u : (forall n i, 0 <= d_u E n i < 1) -> d_u E 0 i = frac_part u ->
  own_r P false (film_view P (T 1 spot mu P E i)) = base + st u / 2.
Proof.
  intros HE Eu. destruct (one_weights E i u HE Eu) as (A1 & _). destruct (one_event E i HE) as (_ & _ & A3 & _). rewrite Eu in A3.
  unfold own_r. rewrite A1. unfold c_sw, c_di. set (a := film_view P (T 1 spot mu P E i)) in *.
  assert (Ei : v_inc P false a = I0).
  { unfold v_inc. unfold a. rewrite (T_in 1 spot mu P E) by (lia || apply HP). cbn [nan_to_num]. rewrite (fl_nt P HP).
    destruct HP as (Hb & Hr & Hg & Hk1 & Hk2 & Hp & Hz & Hth & Ha' & Hm & Hf & Hbk). apply pf1_normal; assumption || lra. }
  rewrite Ei, A3. fold (cr u). fold (wt u). unfold base, st.
  replace (v_dia P a) with 0.
  - destruct (cr u); lra.
  - unfold v_dia. replace (p_boundary P) with film by (symmetry; apply HP). unfold a, film_view. cbn [v_kz0].
    destruct (T_first 1 spot mu P E ltac:(lia) i) as (_ & _ & K0 & _). rewrite K0. symmetry. apply film_angle_ez.
Qed.
Lemma run_formula n E (us : nat -> R) : (0 < n)%nat -> (forall n i, 0 <= d_u E n i < 1) -> (forall i, d_u E 0 i = frac_part (us i)) ->
  total (map (fun i => kn (us i)) (seq 0 n)) <> 0 ->
  INR n * refl_of (run n E) = total (map (fun i => base + st (us i) / 2) (seq 0 n))
    + (1 - x0) / x0 * (total (map (fun i => tpw (us i)) (seq 0 n)) ^ 2 / total (map (fun i => kn (us i)) (seq 0 n))).
Proof.
  intros Hn HE Eu Hk. destruct surf_range as [RI RX]. assert (Hb : p_boundary P = film) by apply HP.
  set (v := map (fun i => film_view P (fl_traj 1 spot 0 0 pmin pmax mu P E i)) (seq 0 n)).
  assert (Tot : forall (f : view -> R) (g : R -> R), (forall i, f (film_view P (T 1 spot mu P E i)) = g (us i)) -> total (map f v) = total (map (fun i => g (us i)) (seq 0 n))).
  { intros f g H. unfold v. rewrite map_map. f_equal. apply map_ext. intros i. rewrite fl_normal. apply H. }
  assert (Kn : c_known P false v = total (map (fun i => kn (us i)) (seq 0 n))).
  { change (total (map (fun a => c_ab P false a + c_rp P false a + c_tp P false a) v) = total (map (fun i => kn (us i)) (seq 0 n))).
    apply (Tot _ kn). intros i. apply (one_weights E i (us i) HE (Eu i)). }
  assert (Tp : total (map (c_tp P false) v) = total (map (fun i => tpw (us i)) (seq 0 n))).
  { apply (Tot _ tpw). intros i. apply (one_weights E i (us i) HE (Eu i)). }
  assert (Rp : total (map (c_rp P false) v) = 0).
  { rewrite (Tot _ (fun _ => 0)). { generalize (seq 0 n). intros l; induction l as [|j l IH]; cbn [map total]; lra. } intros i. apply (one_weights E i (us i) HE (Eu i)). }
  assert (Tf : back_t P false v = (1 - x0) / x0 * total (map (fun i => tpw (us i)) (seq 0 n))).
  { unfold back_t. rewrite (Tot _ (fun u => tpw u * ((1 - x0) / x0))). { rewrite total_map_times. ring. }
    intros i. destruct (one_weights E i (us i) HE (Eu i)) as (_ & _ & _ & H & _). apply Rmult_eq_reg_l with x0; [rewrite H; field; lra|lra]. }
  assert (Own : total (map (own_r P false) v) = total (map (fun i => base + st (us i) / 2) (seq 0 n))).
  { apply (Tot _ (fun u => base + st u / 2)). intros i. now apply one_own. }
  destruct (fl_answers 1 spot 0 0 pmin pmax mu P ltac:(lia) Hmu HP n E Hn HE) as (o & Eo).
  { fold v. unfold bad_known. rewrite Hb, Kn. now apply Reqb_false. }
  destruct (fl_answer 1 spot 0 0 pmin pmax mu P ltac:(lia) Hmu HP Hfd Hv n E o Hn HE Eo) as (_ & _ & Q & _).
  fold v in Q. rewrite Eo. cbn [refl_of]. rewrite Q, Own. unfold shared_r. rewrite Hb. unfold c_rfrac, c_tfrac. rewrite Kn, Tp, Rp, Tf. field. lra.
Qed.
End OneEvent.
