(** Lemmas for C161. *)
From Coq Require Import Lra Lia Psatz Reals List.
From Verif Require Import Num Spec Spec_scat Spec_mean Spec_local Spec_diffuse M_init M_montecarlo M_scat L_num L_sampling L_mean L_periodic L_local L_local2 L_montecarlo.
From Coquelicot Require Import Coquelicot.
Import ListNotations.
Open Scope R_scope.

(** ** The law of one polar angle *)
Section Table.
Variables (p : list R) (lo : R).
Hypothesis (Hlo : 0 <= lo <= PI) (Hp : List.Forall (fun x => 0 <= x) p) (Ht : 0 < total (map (angle_weight p lo) (seq 0 (length p)))).
Local Notation n := (length p).
Local Notation w := (angle_weight p lo).
Definition polar (u : R) : R := match sample_angle_1d p lo 0 u with Ok a => fst a | Err _ => 0 end.
Lemma drawn_ok t i : drawn_angles p lo t i = (polar (t (2 * i)%nat), 2 * PI * t (S (2 * i))).
Proof.
  unfold drawn_angles, polar. destruct (angle_1d p lo 0 0 Hlo Hp ltac:(lra) Ht) as (k & E & _).
  unfold sample_angle_1d in *. unfold choice in *. destruct (get_all _) as [q|]; [|discriminate].
  destruct (existsb _ q); [discriminate|]. destruct (Rltb _ _); [discriminate|]. reflexivity.
Qed.
Lemma w_pos i : (i < n)%nat -> 0 <= w i.
Proof.
  intros Hi. unfold angle_weight. apply Rmult_le_pos.
  - rewrite Forall_forall in Hp. apply Hp, nth_In, Hi.
  - pose proof PI_RGT_0. destruct (grid_range lo PI n i ltac:(lra) Hi). apply sin_ge_0; lra.
Qed.
Lemma partial_le i j : (i <= j <= n)%nat -> total (map w (seq 0 i)) <= total (map w (seq 0 j)).
Proof.
  intros [H1 H2]. induction H1 as [|j H1 IH]; [lra|]. rewrite seq_S, map_app, total_app. cbn [Nat.add map total]. pose proof (w_pos j ltac:(lia)). specialize (IH ltac:(lia)). lra.
Qed.
Lemma polar_at u i : (i < n)%nat -> total (map w (seq 0 i)) < u * total (map w (seq 0 n)) < total (map w (seq 0 (S i))) -> polar u = grid lo PI n i.
Proof.
  intros Hi [H1 H2]. set (s := total (map w (seq 0 n))) in *.
  assert (A0 : 0 <= total (map w (seq 0 i))) by (pose proof (partial_le 0 i ltac:(lia)) as Q; cbn in Q; exact Q).
  assert (A1 : total (map w (seq 0 (S i))) <= s) by (apply partial_le; lia).
  assert (Hu : 0 <= u < 1) by nra.
  unfold polar. destruct (angle_1d p lo 0 u Hlo Hp Hu Ht) as (k & E & K1 & K2 & K3). rewrite E. cbn [fst]. f_equal.
  change (total (map w (seq 0 k)) <= u * s) in K2. change (u * s < total (map w (seq 0 (S k)))) in K3.
  destruct (Nat.lt_trichotomy k i) as [L|[L|L]]; [|exact L|].
  - pose proof (partial_le (S k) i ltac:(lia)). lra.
  - pose proof (partial_le (S i) k ltac:(lia)). lra.
Qed.
Lemma polar_integral (f : R -> R) : is_RInt (fun u => f (polar u)) 0 1 (average p lo f).
Proof.
  set (s := total (map w (seq 0 n))) in *. set (A := fun i => total (map w (seq 0 i)) / s).
  assert (G : forall i, (i <= n)%nat -> is_RInt (fun u => f (polar u)) 0 (A i) (total (map (fun i => share w n i * f (grid lo PI n i)) (seq 0 i)))).
  { induction i as [|i IH]; intros Hi.
    - unfold A. cbn [seq map total]. replace (0 / s) with 0 by (field; apply Rgt_not_eq; exact Ht). exact (is_RInt_point (fun u => f (polar u)) 0).
    - specialize (IH ltac:(lia)). rewrite (seq_S i), map_app, total_app. cbn [Nat.add map total].
      assert (EA : A (S i) = A i + share w n i) by (unfold A, share; rewrite (seq_S i), map_app, total_app; cbn [Nat.add map total]; fold s; field; apply Rgt_not_eq; exact Ht).
      assert (Hsh : 0 <= share w n i) by (unfold share; apply Rmult_le_pos; [apply w_pos; lia|left; apply Rinv_0_lt_compat; exact Ht]).
      assert (Q : is_RInt (fun u => f (polar u)) (A i) (A (S i)) (share w n i * f (grid lo PI n i))).
      { pose proof (is_RInt_const (A i) (A (S i)) (f (grid lo PI n i))) as Q.
        assert (ES : scal (A (S i) - A i) (f (grid lo PI n i)) = share w n i * f (grid lo PI n i)).
        { rewrite EA. change ((A i + share w n i - A i) * f (grid lo PI n i) = share w n i * f (grid lo PI n i)). ring. }
        rewrite <- ES.
        refine (is_RInt_ext (fun _ => f (grid lo PI n i)) _ _ _ _ _ Q). intros x Hx. rewrite Rmin_left, Rmax_right in Hx by lra. symmetry. f_equal.
        apply polar_at; [lia|]. fold s. destruct Hx as [X1 X2].
        assert (E1 : A i * s = total (map w (seq 0 i))) by (unfold A; field; apply Rgt_not_eq; exact Ht).
        assert (E2 : A (S i) * s = total (map w (seq 0 (S i)))) by (unfold A; field; apply Rgt_not_eq; exact Ht).
        split; [rewrite <- E1|rewrite <- E2]; apply Rmult_lt_compat_r; assumption. }
      pose proof (is_RInt_Chasles (fun u => f (polar u)) 0 (A i) (A (S i)) _ _ IH Q) as Q2.
      rewrite Rplus_0_r. exact Q2. }
  specialize (G n (Nat.le_refl _)). unfold A in G. fold s in G. unfold Rdiv in G. rewrite Rinv_r in G by (apply Rgt_not_eq; exact Ht). exact G.
Qed.
End Table.

Lemma double_wave a b : is_RInt (fun x => 0 + a * cos (2 * PI * (2 * x)) + b * sin (2 * PI * (2 * x))) 0 1 0.
Proof.
  pose proof (wave_mean a b 0) as W.
  set (f := fun x => 0 + a * cos (2 * PI * x) + b * sin (2 * PI * x)).
  assert (W2 : is_RInt f 1 2 0).
  { assert (E : forall x, f (x + 1) = f x).
    { intros x. unfold f. replace (2 * PI * (x + 1)) with (2 * PI * x + 2 * PI) by ring. rewrite cos_plus, sin_plus, cos_2PI, sin_2PI. ring. }
    pose proof (is_RInt_comp_lin f 1 (-1) 1 2 0) as Q. replace (1 * 1 + -1) with 0 in Q by ring. replace (1 * 2 + -1) with 1 in Q by ring.
    refine (is_RInt_ext _ _ _ _ _ _ (Q W)). intros x _. change (1 * f (1 * x + -1) = f x). rewrite <- (E (1 * x + -1)). replace (1 * x + -1 + 1) with x by ring. ring. }
  pose proof (is_RInt_Chasles f 0 1 2 _ _ W W2) as W3.
  pose proof (is_RInt_comp_lin f 2 0 0 1) as Q. replace (2 * 0 + 0) with 0 in Q by ring. replace (2 * 1 + 0) with 2 in Q by ring.
  pose proof (is_RInt_scal _ 0 1 (/ 2) _ (Q _ W3)) as R2.
  assert (R3 : is_RInt (fun x => 0 + a * cos (2 * PI * (2 * x)) + b * sin (2 * PI * (2 * x))) 0 1 (scal (/ 2) (plus 0 0))).
  { refine (is_RInt_ext _ _ _ _ _ _ R2). intros x _. change (/ 2 * (2 * f (2 * x + 0)) = 0 + a * cos (2 * PI * (2 * x)) + b * sin (2 * PI * (2 * x))).
    unfold f. replace (2 * x + 0) with (2 * x) by ring. field. }
  refine (eq_ind _ (fun v => is_RInt _ 0 1 v) R3 _ _). change (/ 2 * (0 + 0) = 0). ring.
Qed.

(** ** Moments of the directions *)
Ltac rring := match goal with |- @eq _ ?l ?r => change (@eq R l r) end; ring.
Section Walk.
Variables (pick : R -> R) (avg : (R -> R) -> R).
Hypothesis Havg : forall f : R -> R, is_RInt (fun u => f (pick u)) 0 1 (avg f).
Definition wang (t : nat -> R) (i : nat) : R * R := (pick (t (2 * i)%nat), 2 * PI * t (S (2 * i))).
Definition K (t : nat -> R) (i : nat) : vec := scat_dir (0, 0, 1) (wang t) i.
Lemma K_dep i t t' : (forall k, (k < 2 * i)%nat -> t k = t' k) -> K t i = K t' i.
Proof.
  induction i as [|i IH]; intros H; [reflexivity|]. unfold K in *. cbn [scat_dir]. rewrite IH by (intros; apply H; lia).
  unfold wang. cbn [fst snd]. rewrite (H (2 * i)%nat), (H (S (2 * i))) by lia. reflexivity.
Qed.
Lemma mean_step i (c : (nat -> R) -> R) (H : R -> vec -> R -> R) (F0 G : R -> vec -> R) m : dep (2 * i) c ->
  (forall a k th, is_RInt (fun x => F0 a (scatter1 k th (2 * PI * x))) 0 1 (H a k th)) ->
  (forall a k, is_RInt (fun u => H a k (pick u)) 0 1 (G a k)) ->
  is_mean (2 * i) (fun t => G (c t) (K t i)) m -> is_mean (2 * S i) (fun t => F0 (c t) (K t (S i))) m.
Proof.
  intros Hc H1 H2 Hm. replace (2 * S i)%nat with (S (S (2 * i))) by lia. cbn [is_mean].
  exists (fun t => H (c t) (K t i) (pick (t (2 * i)%nat))). split.
  - intros t. refine (is_RInt_ext _ _ _ _ _ _ (H1 (c t) (K t i) (pick (t (2 * i)%nat)))). intros x _.
    assert (E1 : c (upd t (S (2 * i)) x) = c t) by (apply Hc; intros k Hk; apply upd_other; lia).
    assert (E2 : K (upd t (S (2 * i)) x) (S i) = scatter1 (K t i) (pick (t (2 * i)%nat)) (2 * PI * x)).
    { change (K (upd t (S (2 * i)) x) (S i)) with (scatter1 (K (upd t (S (2 * i)) x) i) (pick (upd t (S (2 * i)) x (2 * i)%nat)) (2 * PI * upd t (S (2 * i)) x (S (2 * i)))).
      rewrite upd_same, upd_other by lia. f_equal. apply K_dep. intros k Hk. apply upd_other. lia. }
    now rewrite E1, E2.
  - exists (fun t => G (c t) (K t i)). split; [|exact Hm].
    intros t. refine (is_RInt_ext _ _ _ _ _ _ (H2 (c t) (K t i))). intros x _.
    assert (E1 : c (upd t (2 * i) x) = c t) by (apply Hc; intros k Hk; apply upd_other; lia).
    assert (E2 : K (upd t (2 * i) x) i = K t i) by (apply K_dep; intros k Hk; apply upd_other; lia).
    now rewrite upd_same, E1, E2.
Qed.

Lemma avg_eq f g v : (forall x, f x = g x) -> avg g = v -> avg f = v.
Proof.
  intros E <-. pose proof (is_RInt_unique (fun u => f (pick u)) 0 1 (avg f) (Havg f)) as A. pose proof (is_RInt_unique (fun u => g (pick u)) 0 1 (avg g) (Havg g)) as B.
  rewrite <- A, <- B. apply RInt_ext. intros x _. apply E.
Qed.
Lemma avg_lin a b f g : is_RInt (fun u => a * f (pick u) + b * g (pick u)) 0 1 (a * avg f + b * avg g).
Proof. exact (is_RInt_plus (fun u => a * f (pick u)) (fun u => b * g (pick u)) 0 1 _ _ (is_RInt_scal (fun u => f (pick u)) 0 1 a _ (Havg f)) (is_RInt_scal (fun u => g (pick u)) 0 1 b _ (Havg g))). Qed.
Lemma const_int (c : R) : is_RInt (fun _ : R => c) 0 1 c.
Proof.
  pose proof (is_RInt_const (V := R_NormedModule) 0 1 c) as Q. refine (eq_ind _ (fun v => is_RInt (fun _ : R => c) 0 1 v) Q _ _). change ((1 - 0) * c = c). ring.
Qed.
Lemma K_0 t : K t 0 = (0, 0, 1).
Proof. reflexivity. Qed.
(** x and y average out, also when multiplied by earlier quantities or by kz. *)
Lemma mean_x i c : dep (2 * i) c -> is_mean (2 * S i) (fun t => c t * vx (K t (S i))) 0.
Proof.
  intros Hc. refine (mean_step i c (fun a k th => 0) (fun a k => a * vx k) (fun _ _ => 0) 0 Hc _ _ _).
  - intros a k th. refine (is_RInt_ext _ _ _ _ _ _ (wave_mean (a * (vx k * cos th + vz k * sin th)) (- (a * vy k)) 0)). intros x _. unfold scatter1. cbn [vx fst]. rring.
  - intros a k. apply const_int.
  - apply is_mean_const.
Qed.
Lemma mean_y i c : dep (2 * i) c -> is_mean (2 * S i) (fun t => c t * vy (K t (S i))) 0.
Proof.
  intros Hc. refine (mean_step i c (fun a k th => 0) (fun a k => a * vy k) (fun _ _ => 0) 0 Hc _ _ _).
  - intros a k th. refine (is_RInt_ext _ _ _ _ _ _ (wave_mean (a * vy k) (a * (vx k * cos th + vz k * sin th)) 0)). intros x _. unfold scatter1. cbn [vy fst snd]. rring.
  - intros a k. apply const_int.
  - apply is_mean_const.
Qed.
Lemma mean_xz i : is_mean (2 * S i) (fun t => vx (K t (S i)) * vz (K t (S i))) 0.
Proof.
  refine (mean_step i (fun _ => 0) (fun a k th => 0) (fun a k => vx k * vz k) (fun _ _ => 0) 0 (fun _ _ _ => eq_refl) _ _ _).
  - intros a k th. refine (is_RInt_ext _ _ _ _ _ _ (wave_mean ((vx k * cos th + vz k * sin th) * (- vx k * sin th + vz k * cos th)) (- vy k * (- vx k * sin th + vz k * cos th)) 0)).
    intros x _. unfold scatter1. cbn [vx vz fst snd]. rring.
  - intros a k. apply const_int.
  - apply is_mean_const.
Qed.
Lemma mean_z i c m m' : dep (2 * i) c -> is_mean (2 * i) (fun t => c t * vz (K t i)) m -> is_mean (2 * i) (fun t => c t * vx (K t i)) m' ->
  is_mean (2 * S i) (fun t => c t * vz (K t (S i))) (avg cos * m - avg sin * m').
Proof.
  intros Hc H1 H2. refine (mean_step i c (fun a k th => - (a * vx k) * sin th + a * vz k * cos th) (fun a k => a * vz k) (fun a k => - (a * vx k) * avg sin + a * vz k * avg cos) _ Hc _ _ _).
  - intros a k th. refine (is_RInt_ext _ _ _ _ _ _ (const_int _)). intros x _. unfold scatter1. cbn [vz snd]. rring.
  - intros a k. apply avg_lin.
  - replace (avg cos * m - avg sin * m') with (avg cos * m + - avg sin * m') by ring.
    refine (is_mean_ext _ _ _ _ _ (is_mean_plus _ _ _ _ _ (is_mean_scal _ (avg cos) _ _ H1) (is_mean_scal _ (- avg sin) _ _ H2))). intros t. ring.
Qed.
Lemma dep_one n a : dep n (fun _ => a).
Proof. intros t t' _. reflexivity. Qed.
Lemma mean_kx i : is_mean (2 * i) (fun t => vx (K t i)) 0.
Proof.
  destruct i as [|i]; [intros t; reflexivity|]. refine (is_mean_ext _ _ _ _ _ (mean_x i (fun _ => 1) (dep_one _ 1))). intros t. ring.
Qed.
Lemma mean_ky i : is_mean (2 * i) (fun t => vy (K t i)) 0.
Proof.
  destruct i as [|i]; [intros t; reflexivity|]. refine (is_mean_ext _ _ _ _ _ (mean_y i (fun _ => 1) (dep_one _ 1))). intros t. ring.
Qed.
Lemma mean_kz i : is_mean (2 * i) (fun t => vz (K t i)) (avg cos ^ i).
Proof.
  induction i as [|i IH]; [intros t; reflexivity|].
  assert (Q : is_mean (2 * S i) (fun t => 1 * vz (K t (S i))) (avg cos * avg cos ^ i - avg sin * 0)).
  { apply (mean_z i (fun _ => 1)); [apply dep_one| |].
    - refine (is_mean_ext _ _ _ _ _ IH). intros t. ring.
    - refine (is_mean_ext _ _ _ _ _ (mean_kx i)). intros t. ring. }
  replace (avg cos ^ S i) with (avg cos * avg cos ^ i - avg sin * 0) by (cbn [pow]; ring).
  refine (is_mean_ext _ _ _ _ _ Q). intros t. ring.
Qed.
Lemma K_unit t i : vx (K t i) ^ 2 + vy (K t i) ^ 2 + vz (K t i) ^ 2 = 1.
Proof.
  induction i as [|i IH]; [cbn; ring|].
  change (K t (S i)) with (scatter1 (K t i) (pick (t (2 * i)%nat)) (2 * PI * t (S (2 * i)))).
  generalize (pick (t (2 * i)%nat)) (2 * PI * t (S (2 * i))). intros th ph. rewrite <- IH. destruct (K t i) as [[x y] z].
  unfold scatter1. cbn [vx vy vz fst snd].
  assert (A1 : cos th ^ 2 = 1 - sin th ^ 2) by (pose proof (sin2_cos2 th) as Q; unfold Rsqr in Q; lra).
  assert (A2 : cos ph ^ 2 = 1 - sin ph ^ 2) by (pose proof (sin2_cos2 ph) as Q; unfold Rsqr in Q; lra).
  transitivity ((x * cos th + z * sin th) ^ 2 * (cos ph ^ 2 + sin ph ^ 2) + y ^ 2 * (cos ph ^ 2 + sin ph ^ 2) + (- x * sin th + z * cos th) ^ 2); [ring|].
  rewrite A2. transitivity (x ^ 2 * (cos th ^ 2 + sin th ^ 2) + z ^ 2 * (cos th ^ 2 + sin th ^ 2) + y ^ 2); [ring|]. rewrite A1. ring.
Qed.
(** Squares. *)
Lemma mean_xx i m : is_mean (2 * S i) (fun t => vz (K t (S i)) ^ 2) m -> is_mean (2 * S i) (fun t => vx (K t (S i)) ^ 2) ((1 - m) / 2).
Proof.
  intros Hz. 
  assert (Q : is_mean (2 * S i) (fun t => vx (K t (S i)) ^ 2 - vy (K t (S i)) ^ 2) 0).
  { refine (mean_step i (fun _ => 0) (fun a k th => 0) (fun a k => vx k ^ 2 - vy k ^ 2) (fun _ _ => 0) 0 (fun _ _ _ => eq_refl) _ _ _).
    - intros _ k th. set (a := vx k * cos th + vz k * sin th). set (b := vy k).
      assert (W : is_RInt (fun x => 0 + (a ^ 2 - b ^ 2) * cos (2 * PI * (2 * x)) + - (2 * a * b) * sin (2 * PI * (2 * x))) 0 1 0).
      { pose proof (double_wave (a ^ 2 - b ^ 2) (- (2 * a * b))) as W. exact W. }
      refine (is_RInt_ext _ _ _ _ _ _ W). intros x _. unfold scatter1. cbn [vx vy fst snd]. fold a b.
      replace (2 * PI * (2 * x)) with (2 * (2 * PI * x)) by ring. rewrite cos_2a, sin_2a. change (vy k) with b. rring.
    - intros a k. apply const_int.
    - apply is_mean_const. }
  replace ((1 - m) / 2) with (1 / 2 * 1 + (- (1 / 2) * m + 1 / 2 * 0)) by field.
  refine (is_mean_ext _ _ _ _ _ (is_mean_plus _ _ _ _ _ (is_mean_scal _ (1 / 2) _ _ (is_mean_const _ 1)) (is_mean_plus _ _ _ _ _ (is_mean_scal _ (- (1 / 2)) _ _ Hz) (is_mean_scal _ (1 / 2) _ _ Q)))).
  intros t. pose proof (K_unit t (S i)) as Q1. lra.
Qed.
Lemma mean_zz i : is_mean (2 * i) (fun t => vz (K t i) ^ 2) ((1 + 2 * avg (fun th => (3 * cos th ^ 2 - 1) / 2) ^ i) / 3).
Proof.
  set (q := avg _). assert (Eq : avg (fun th => cos th ^ 2) = (2 * q + 1) / 3 /\ avg (fun th => sin th ^ 2) = 1 - (2 * q + 1) / 3).
  { assert (H1 : is_RInt (fun u => (2 / 3) * ((3 * cos (pick u) ^ 2 - 1) / 2) + (1 / 3) * 1) 0 1 ((2 / 3) * q + (1 / 3) * avg (fun _ => 1))) by exact (avg_lin (2 / 3) (1 / 3) (fun th => (3 * cos th ^ 2 - 1) / 2) (fun _ => 1)).
    assert (A1 : avg (fun _ => 1) = 1) by (rewrite <- (is_RInt_unique _ _ _ _ (Havg (fun _ => 1))); exact (is_RInt_unique _ _ _ _ (const_int 1))).
    assert (A2 : avg (fun th => cos th ^ 2) = (2 * q + 1) / 3).
    { rewrite <- (is_RInt_unique _ _ _ _ (Havg (fun th => cos th ^ 2))). rewrite A1 in H1. replace ((2 * q + 1) / 3) with (2 / 3 * q + 1 / 3 * 1) by field.
      apply is_RInt_unique. refine (is_RInt_ext _ _ _ _ _ _ H1). intros x _. match goal with |- @eq _ ?l ?r => change (@eq R l r) end. field. }
    split; [exact A2|]. rewrite <- (is_RInt_unique _ _ _ _ (Havg (fun th => sin th ^ 2))).
    pose proof (avg_lin 1 (-1) (fun _ => 1) (fun th => cos th ^ 2)) as H2. rewrite A1, A2 in H2. replace (1 - (2 * q + 1) / 3) with (1 * 1 + -1 * ((2 * q + 1) / 3)) by ring.
    apply is_RInt_unique. refine (is_RInt_ext _ _ _ _ _ _ H2). intros x _. pose proof (sin2_cos2 (pick x)) as Q. unfold Rsqr in Q. match goal with |- @eq _ ?l ?r => change (@eq R l r) end. lra. }
  destruct Eq as [E1 E2]. clearbody q.
  induction i as [|i IH].
  - intros t. cbn [pow]. rewrite K_0. cbn. field.
  - (* the next mean square from the present moments *)
    assert (Hx : is_mean (2 * i) (fun t => avg (fun th => sin th ^ 2) * vx (K t i) ^ 2 + (- 2 * avg (fun th => sin th * cos th)) * (vx (K t i) * vz (K t i))) ((1 - (2 * q + 1) / 3) * ((1 - q ^ i) / 3))).
    { destruct i as [|i].
      - intros t. rewrite K_0. cbn. field.
      - pose proof (mean_xx i _ IH) as X.
        replace ((1 - (2 * q + 1) / 3) * ((1 - q ^ S i) / 3)) with (avg (fun th => sin th ^ 2) * ((1 - (1 + 2 * q ^ S i) / 3) / 2) + (- 2 * avg (fun th => sin th * cos th)) * 0) by (rewrite E2; field).
        exact (is_mean_plus _ _ _ _ _ (is_mean_scal _ _ _ _ X) (is_mean_scal _ _ _ _ (mean_xz i))). }
    pose proof (is_mean_plus _ _ _ _ _ Hx (is_mean_scal _ (avg (fun th => cos th ^ 2)) _ _ IH)) as M.
    refine (eq_ind _ (fun v => is_mean (2 * S i) _ v) (mean_step i (fun _ => 0)
      (fun _ k th => (- vx k * sin th + vz k * cos th) ^ 2) (fun _ k => vz k ^ 2)
      (fun _ k => avg (fun th => sin th ^ 2) * vx k ^ 2 + (- 2 * avg (fun th => sin th * cos th)) * (vx k * vz k) + avg (fun th => cos th ^ 2) * vz k ^ 2)
      _ (fun _ _ _ => eq_refl) _ _ M) _ _).
    + intros _ k th. refine (is_RInt_ext _ _ _ _ _ _ (const_int _)). intros x _. unfold scatter1. cbn [vz snd]. reflexivity.
    + intros _ k.
      pose proof (avg_lin (vx k ^ 2) (- 2 * (vx k * vz k)) (fun th => sin th ^ 2) (fun th => sin th * cos th)) as A1.
      pose proof (is_RInt_plus _ _ _ _ _ _ A1 (is_RInt_scal _ _ _ (vz k ^ 2) _ (Havg (fun th => cos th ^ 2)))) as A2.
      refine (eq_ind _ (fun v => is_RInt _ 0 1 v) (is_RInt_ext _ _ _ _ _ _ A2) _ _).
      * intros x _. match goal with |- plus ?u (scal ?v ?w) = _ => change (plus u (scal v w)) with (u + v * w) end. rring.
      * match goal with |- plus ?u (scal ?v ?w) = _ => change (plus u (scal v w)) with (u + v * w) end. rring.
    + rewrite E1. cbn [pow]. field.
Qed.
(** Products of z components. *)
Lemma dep_K i (c : vec -> R) : dep (2 * i) (fun t => c (K t i)).
Proof. intros t t' H. now rewrite (K_dep i t t' H). Qed.
Lemma dep_le n m F : (n <= m)%nat -> dep n F -> dep m F.
Proof. intros L H t t' E. apply H. intros i Hi. apply E. lia. Qed.
Lemma mean_zd i d : is_mean (2 * (i + d)) (fun t => vz (K t i) * vz (K t (i + d))) (avg cos ^ d * ((1 + 2 * avg (fun th => (3 * cos th ^ 2 - 1) / 2) ^ i) / 3)).
Proof.
  induction d as [|d IH].
  - rewrite Nat.add_0_r. cbn [pow]. rewrite Rmult_1_l. refine (is_mean_ext _ _ _ _ _ (mean_zz i)). intros t. ring.
  - assert (HD : dep (2 * (i + d)) (fun t => vz (K t i))) by (apply (dep_le (2 * i)); [lia|apply (dep_K i vz)]).
    assert (X : is_mean (2 * (i + d)) (fun t => vz (K t i) * vx (K t (i + d))) 0).
    { destruct d as [|d].
      - rewrite Nat.add_0_r. destruct i as [|i]; [intros t; rewrite K_0; cbn; ring|].
        refine (is_mean_ext _ _ _ _ _ (mean_xz i)). intros t. ring.
      - replace (i + S d)%nat with (S (i + d)) by lia. apply (mean_x (i + d) (fun t => vz (K t i))).
        apply (dep_le (2 * i)); [lia|apply (dep_K i vz)]. }
    pose proof (mean_z (i + d) (fun t => vz (K t i)) _ _ HD IH X) as Q. replace (i + S d)%nat with (S (i + d)) by lia.
    refine (eq_ind _ (fun v => is_mean (2 * S (i + d)) (fun t => vz (K t i) * vz (K t (S (i + d)))) v) Q _ _). cbn [pow]. ring.
Qed.
Lemma mean_zz_corr i j n : (i <= n)%nat -> (j <= n)%nat ->
  is_mean (2 * n) (fun t => vz (K t i) * vz (K t j)) (z_correlation (avg cos) (avg (fun th => (3 * cos th ^ 2 - 1) / 2)) i j).
Proof.
  assert (G : forall i j, (i <= j)%nat -> (j <= n)%nat -> is_mean (2 * n) (fun t => vz (K t i) * vz (K t j)) (z_correlation (avg cos) (avg (fun th => (3 * cos th ^ 2 - 1) / 2)) i j)).
  { clear i j. intros i j L Hn. unfold z_correlation. rewrite Nat.max_r, Nat.min_l by lia.
    pose proof (mean_zd i (j - i)) as Q. replace (i + (j - i))%nat with j in Q by lia.
    replace (2 * n)%nat with ((2 * n - 2 * j) + 2 * j)%nat by lia. apply mean_more; [|exact Q].
    intros t t' H. rewrite (K_dep i t t'), (K_dep j t t') by (intros; apply H; lia). reflexivity. }
  intros Hi Hj. destruct (Nat.le_ge_cases i j) as [L|L]; [now apply G|].
  pose proof (G j i L Hi) as Q. unfold z_correlation in *. rewrite Nat.max_comm, Nat.min_comm. refine (is_mean_ext _ _ _ _ _ Q). intros t. ring.
Qed.
Lemma mean_comp i n : (i <= n)%nat -> is_mean (2 * n) (fun t => vx (K t i)) 0 /\ is_mean (2 * n) (fun t => vy (K t i)) 0 /\ is_mean (2 * n) (fun t => vz (K t i)) (avg cos ^ i).
Proof.
  intros L. replace (2 * n)%nat with ((2 * n - 2 * i) + 2 * i)%nat by lia.
  split; [|split]; (apply mean_more; [|first [apply mean_kx|apply mean_ky|apply mean_kz]]).
  - apply (dep_K i vx).
  - apply (dep_K i vy).
  - apply (dep_K i vz).
Qed.
End Walk.

(** Sums of means. *)
Lemma is_mean_total N (F : nat -> (nat -> R) -> R) (m : nat -> R) l : (forall i, In i l -> is_mean N (F i) (m i)) -> is_mean N (fun t => total (map (fun i => F i t) l)) (total (map m l)).
Proof.
  induction l as [|i l IH]; intros H; [exact (is_mean_const N 0)|]. cbn [map total]. apply (is_mean_plus N (F i) (fun t => total (map (fun i => F i t) l))); [apply H; now left|apply IH; intros; apply H; now right].
Qed.
(** Positions are sums of steps along the directions. *)
Lemma total_square (f : nat -> R) l : total (map f l) ^ 2 = total (map (fun i => total (map (fun j => f i * f j) l)) l).
Proof.
  assert (G : forall l' , total (map f l') * total (map f l) = total (map (fun i => total (map (fun j => f i * f j) l)) l')).
  { induction l' as [|i l' IH]; cbn [map total]; [ring|]. rewrite Rmult_plus_distr_r, IH. f_equal. clear. induction l as [|j l IH]; cbn [map total]; [ring|]. rewrite Rmult_plus_distr_l, IH. reflexivity. }
  replace (total (map f l) ^ 2) with (total (map f l) * total (map f l)) by ring. apply G.
Qed.
