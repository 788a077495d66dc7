(** Mean directions and the mean cosine between consecutive directions (C155). *)
From Coq Require Import Lra Lia Psatz Reals List.
From Verif Require Import Num Spec Spec_mean Spec_local M_montecarlo L_num L_mean L_periodic L_local.
From Coquelicot Require Import Coquelicot.
Import ListNotations.
Open Scope R_scope.

Local Ltac rring := match goal with |- @eq _ ?l ?r => change (@eq R l r) end; ring.

Lemma turn_orthonormal f t p : orthonormal f -> orthonormal (turn_frame f t p).
Proof.
  unfold orthonormal, turn_frame, fr_1, fr_2, fr_dir, vadd, vscale, dot. destruct f as [[[[a1 a2] a3] [[b1 b2] b3]] [[c1 c2] c3]].
  cbn [fst snd vx vy vz]. intros (H1 & H2 & H3 & H4 & H5 & H6).
  pose proof (sin2_cos2 t) as S1. pose proof (sin2_cos2 p) as S2. unfold Rsqr in *.
  set (ct := cos t) in *. set (st := sin t) in *. set (cp := cos p) in *. set (sp := sin p) in *.
  assert (E11 : a1 * a1 + a2 * a2 + a3 * a3 = 1) by lra. assert (E22 : b1 * b1 + b2 * b2 + b3 * b3 = 1) by lra.
  assert (E33 : c1 * c1 + c2 * c2 + c3 * c3 = 1) by lra.
  set (d12 := a1 * b1 + a2 * b2 + a3 * b3) in *. set (d13 := a1 * c1 + a2 * c2 + a3 * c3) in *. set (d23 := b1 * c1 + b2 * c2 + b3 * c3) in *.
  set (q11 := a1 * a1 + a2 * a2 + a3 * a3) in *. set (q22 := b1 * b1 + b2 * b2 + b3 * b3) in *. set (q33 := c1 * c1 + c2 * c2 + c3 * c3) in *.
  assert (K : forall x y z x' y' z' : R,
     (x * a1 + y * b1 + z * c1) * (x' * a1 + y' * b1 + z' * c1) + (x * a2 + y * b2 + z * c2) * (x' * a2 + y' * b2 + z' * c2) + (x * a3 + y * b3 + z * c3) * (x' * a3 + y' * b3 + z' * c3)
     = x * x' + y * y' + z * z').
  { intros x y z x' y' z'. transitivity (x * x' * q11 + y * y' * q22 + z * z' * q33 + (x * y' + y * x') * d12 + (x * z' + z * x') * d13 + (y * z' + z * y') * d23).
    - unfold q11, q22, q33, d12, d13, d23. ring.
    - rewrite E11, E22, E33, H4, H5, H6. ring. }
  split; [|split; [|split; [|split; [|split]]]].
  - transitivity ((ct * cp) * (ct * cp) + (ct * sp) * (ct * sp) + (- st) * (- st)); [symmetry; etransitivity; [symmetry; apply K|]; ring|].
    transitivity (ct * ct * (sp * sp + cp * cp) + st * st); [ring|]. rewrite S2. lra.
  - transitivity ((- sp) * (- sp) + cp * cp + 0 * 0); [symmetry; etransitivity; [symmetry; apply K|]; ring|]. lra.
  - transitivity ((st * cp) * (st * cp) + (st * sp) * (st * sp) + ct * ct); [symmetry; etransitivity; [symmetry; apply K|]; ring|].
    transitivity (st * st * (sp * sp + cp * cp) + ct * ct); [ring|]. rewrite S2. lra.
  - transitivity ((ct * cp) * (- sp) + (ct * sp) * cp + (- st) * 0); [symmetry; etransitivity; [symmetry; apply K|]; ring|]. ring.
  - transitivity ((ct * cp) * (st * cp) + (ct * sp) * (st * sp) + (- st) * ct); [symmetry; etransitivity; [symmetry; apply K|]; ring|].
    transitivity (ct * st * (sp * sp + cp * cp) - st * ct); [ring|]. rewrite S2. ring.
  - transitivity ((- sp) * (st * cp) + cp * (st * sp) + 0 * ct); [symmetry; etransitivity; [symmetry; apply K|]; ring|]. ring.
Qed.
Lemma turn_angles f t p : orthonormal f ->
  dot (fr_dir (turn_frame f t p)) (fr_dir f) = cos t
  /\ dot (fr_dir (turn_frame f t p)) (fr_1 f) = sin t * cos p
  /\ dot (fr_dir (turn_frame f t p)) (fr_2 f) = sin t * sin p.
Proof.
  unfold orthonormal, turn_frame, fr_1, fr_2, fr_dir, vadd, vscale, dot. destruct f as [[[[a1 a2] a3] [[b1 b2] b3]] [[c1 c2] c3]].
  cbn [fst snd vx vy vz]. intros (H1 & H2 & H3 & H4 & H5 & H6).
  split; [|split].
  - transitivity (sin t * (cos p * (a1 * c1 + a2 * c2 + a3 * c3) + sin p * (b1 * c1 + b2 * c2 + b3 * c3)) + cos t * (c1 * c1 + c2 * c2 + c3 * c3)); [ring|]. rewrite H3, H5, H6. ring.
  - transitivity (sin t * (cos p * (a1 * a1 + a2 * a2 + a3 * a3) + sin p * (a1 * b1 + a2 * b2 + a3 * b3)) + cos t * (a1 * c1 + a2 * c2 + a3 * c3)); [ring|]. rewrite H1, H4, H5. ring.
  - transitivity (sin t * (cos p * (a1 * b1 + a2 * b2 + a3 * b3) + sin p * (b1 * b1 + b2 * b2 + b3 * b3)) + cos t * (b1 * c1 + b2 * c2 + b3 * c3)); [ring|]. rewrite H2, H4, H6. ring.
Qed.

(** A function of the first [n] variables has the same mean over more. *)
Lemma mean_more n d F m : dep n F -> is_mean n F m -> is_mean (d + n) F m.
Proof.
  intros HD H. induction d as [|d IH]; [exact H|]. cbn [Nat.add is_mean]. exists F. split; [|exact IH].
  intros t. pose proof (is_RInt_const 0 1 (F t)) as X. assert (E : (1 - 0) * F t = F t) by ring.
  apply (is_RInt_ext (fun _ => F t)).
  - intros x _. apply HD. intros i Hi. symmetry. apply upd_other. lia.
  - exact (eq_ind _ (fun v => is_RInt (fun _ => F t) 0 1 v) X (F t) E).
Qed.
Lemma mean_last k F (G : (nat -> R) -> R) m : (forall t, is_RInt (fun x => F (upd t k x)) 0 1 (G t)) -> is_mean k G m -> is_mean (S k) F m.
Proof. intros H1 H2. cbn [is_mean]. now exists G. Qed.

(** Directions of a trajectory that starts along +z. *)
Definition D0 (th : nat -> R) (t : nat -> R) (j : nat) : vec := scat_dir (0, 0, 1) (fun n => (th n, 2 * PI * t n)) j.
Lemma D0_ext th t t' j : (forall i, (i < j)%nat -> t i = t' i) -> D0 th t j = D0 th t' j.
Proof.
  unfold D0. induction j as [|j IH]; intros H; [reflexivity|]. cbn [scat_dir fst snd]. rewrite IH by (intros; apply H; lia). now rewrite H by lia.
Qed.
Lemma D0_upd th t j x : D0 th (upd t j x) j = D0 th t j.
Proof. apply D0_ext. intros i Hi. apply upd_other. lia. Qed.
Lemma D0_next th t j : D0 th t (S j) = scatter1 (D0 th t j) (th j) (2 * PI * t j).
Proof. reflexivity. Qed.

Lemma mean_direction th j :
  is_mean j (fun t => vz (D0 th t j)) (fold_right Rmult 1 (map (fun n => cos (th n)) (seq 0 j)))
  /\ is_mean j (fun t => vx (D0 th t j)) 0 /\ is_mean j (fun t => vy (D0 th t j)) 0.
Proof.
  induction j as [|j (IZ & IX & _)].
  - cbn. repeat split.
  - split; [|split].
    + apply (mean_last j _ (fun t => - sin (th j) * vx (D0 th t j) + cos (th j) * vz (D0 th t j))).
      * intros t. set (c := - sin (th j) * vx (D0 th t j) + cos (th j) * vz (D0 th t j)).
        apply (is_RInt_ext (fun x => c + 0 * cos (2 * PI * x) + 0 * sin (2 * PI * x))); [|apply wave_mean].
        intros x _. rewrite D0_next, D0_upd. unfold scatter1. cbn [vz]. unfold c. rring.
      * rewrite seq_S, map_app, fold_right_app. cbn [map fold_right Nat.add].
        assert (E : fold_right Rmult (cos (th j) * 1) (map (fun n => cos (th n)) (seq 0 j))
                  = - sin (th j) * 0 + cos (th j) * fold_right Rmult 1 (map (fun n => cos (th n)) (seq 0 j))).
        { generalize (map (fun n => cos (th n)) (seq 0 j)). intros l. induction l as [|a l IHl]; cbn [fold_right]; [ring|]. rewrite IHl. ring. }
        rewrite E. apply is_mean_plus; apply is_mean_scal; assumption.
    + apply (mean_last j _ (fun t => 0)); [|apply is_mean_const].
      intros t. set (a := vx (D0 th t j) * cos (th j) + vz (D0 th t j) * sin (th j)).
      apply (is_RInt_ext (fun x => 0 + a * cos (2 * PI * x) + (- vy (D0 th t j)) * sin (2 * PI * x))); [|apply wave_mean].
      intros x _. rewrite D0_next, D0_upd, upd_same. unfold scatter1. cbn [vx]. unfold a. rring.
    + apply (mean_last j _ (fun t => 0)); [|apply is_mean_const].
      intros t. set (a := vx (D0 th t j) * cos (th j) + vz (D0 th t j) * sin (th j)).
      apply (is_RInt_ext (fun x => 0 + (vy (D0 th t j)) * cos (2 * PI * x) + a * sin (2 * PI * x))); [|apply wave_mean].
      intros x _. rewrite D0_next, D0_upd, upd_same. unfold scatter1. cbn [vy]. unfold a. rring.
Qed.

(** The mean cosine between directions [j] and [j+1]: the azimuth of the last
    scattering first. *)
Lemma mean_turn th j m : is_mean j (fun t => vz (D0 th t j) * (- sin (th j) * vx (D0 th t j) + cos (th j) * vz (D0 th t j))) m ->
  is_mean (S j) (fun t => dot (D0 th t (S j)) (D0 th t j)) m.
Proof.
  intros H. apply (mean_last j _ (fun t => vz (D0 th t j) * (- sin (th j) * vx (D0 th t j) + cos (th j) * vz (D0 th t j)))); [|exact H].
  intros t. set (c := vz (D0 th t j) * (- sin (th j) * vx (D0 th t j) + cos (th j) * vz (D0 th t j))).
  set (a := vx (D0 th t j) * cos (th j) + vz (D0 th t j) * sin (th j)).
  apply (is_RInt_ext (fun x => c + (a * vx (D0 th t j) + vy (D0 th t j) * vy (D0 th t j)) * cos (2 * PI * x)
     + (a * vy (D0 th t j) - vy (D0 th t j) * vx (D0 th t j)) * sin (2 * PI * x))); [|apply wave_mean].
  intros x _. rewrite D0_next, D0_upd, upd_same. unfold scatter1, dot. cbn [vx vy vz]. unfold c, a. rring.
Qed.
(** Mean of the product of z and x components, and of z squared. *)
Lemma mean_zx th j : is_mean j (fun t => vz (D0 th t j) * vx (D0 th t j)) 0.
Proof.
  destruct j as [|j]; [cbn; intros; ring|]. apply (mean_last j _ (fun t => 0)); [|apply is_mean_const].
  intros t. set (a := vx (D0 th t j) * cos (th j) + vz (D0 th t j) * sin (th j)).
  set (z := - vx (D0 th t j) * sin (th j) + vz (D0 th t j) * cos (th j)).
  apply (is_RInt_ext (fun x => 0 + (z * a) * cos (2 * PI * x) + (- z * vy (D0 th t j)) * sin (2 * PI * x))); [|apply wave_mean].
  intros x _. rewrite D0_next, D0_upd, upd_same. unfold scatter1. cbn [vx vz]. unfold a, z. rring.
Qed.
(** E z^2 obeys the law of the local frame. *)
Fixpoint zz (th : nat -> R) (j : nat) : R :=
  match j with
  | O => 1
  | S j => zz th j * cos (th j) ^ 2 + (1 - zz th j) / 2 * sin (th j) ^ 2
  end.
Lemma wave_square p q : is_RInt (fun x => (p * cos (2 * PI * x) + q * sin (2 * PI * x)) ^ 2) 0 1 ((p ^ 2 + q ^ 2) / 2).
Proof.
  pose proof PI_RGT_0 as HP.
  set (F := fun x : R => (p ^ 2 + q ^ 2) / 2 * x + (p ^ 2 - q ^ 2) / 2 * (sin (4 * PI * x) / (4 * PI)) - p * q * (cos (4 * PI * x) / (4 * PI))).
  assert (E : minus (F 1) (F 0) = (p ^ 2 + q ^ 2) / 2).
  { unfold minus, plus, opp, F; cbn. rewrite !Rmult_1_r, !Rmult_0_r, sin_0, cos_0.
    replace (4 * PI) with (2 * (2 * PI)) by ring. rewrite (sin_2a (2 * PI)), (cos_2a (2 * PI)), sin_2PI, cos_2PI. field. lra. }
  enough (X : is_RInt (fun x => (p * cos (2 * PI * x) + q * sin (2 * PI * x)) ^ 2) 0 1 (minus (F 1) (F 0))) by (exact (eq_ind _ (fun v => is_RInt (fun x => (p * cos (2 * PI * x) + q * sin (2 * PI * x)) ^ 2) 0 1 v) X _ E)).
  apply (is_RInt_derive F).
    - intros x _. unfold F. auto_derive; [lra|]. replace (4 * PI * x) with (2 * (2 * PI * x)) by ring. rewrite sin_2a, cos_2a.
      pose proof (sin2_cos2 (2 * PI * x)) as S2. unfold Rsqr in S2. set (s := sin (2 * PI * x)) in *. set (c := cos (2 * PI * x)) in *.
      assert (C2 : s * s = 1 - c * c) by lra. 
      transitivity ((p ^ 2 + q ^ 2) / 2 + (p ^ 2 - q ^ 2) / 2 * (c * c - s * s) + p * q * (2 * s * c)); [field; lra|].
      transitivity ((p ^ 2 + q ^ 2) / 2 * (s * s + c * c) + (p ^ 2 - q ^ 2) / 2 * (c * c - s * s) + p * q * (2 * s * c)); [rewrite S2; ring|]. field.
    - intros x _. apply (ex_derive_continuous (fun x => (p * cos (2 * PI * x) + q * sin (2 * PI * x)) ^ 2)). auto_derive. exact I.
Qed.
Lemma D0_unit th t j : dot (D0 th t j) (D0 th t j) = 1.
Proof.
  destruct j as [|j]; [unfold dot, D0; cbn; ring|].
  pose proof (kc_unit (th 0%nat) (fun n => th (S n)) (fun n => 2 * PI * t n) j) as U.
  assert (E : forall j, D0 th t (S j) = kc (th 0%nat) (fun n => th (S n)) (fun n => 2 * PI * t n) j).
  { clear. induction j as [|j IH]; [reflexivity|]. rewrite D0_next, IH. reflexivity. }
  now rewrite E.
Qed.
Lemma mean_xx th j : is_mean j (fun t => vz (D0 th t j) ^ 2) (zz th j)
  /\ is_mean j (fun t => vx (D0 th t j) ^ 2) ((1 - zz th j) / 2).
Proof.
  induction j as [|j (IZ & IX)].
  - cbn. split; intros; field.
  - assert (Z : is_mean j (fun t => (- vx (D0 th t j) * sin (th j) + vz (D0 th t j) * cos (th j)) ^ 2) (zz th (S j))).
    { cbn [zz].
      pose proof (is_mean_plus _ _ _ _ _ (is_mean_scal j (cos (th j) ^ 2) _ _ IZ) (is_mean_plus _ _ _ _ _ (is_mean_scal j (sin (th j) ^ 2) _ _ IX)
         (is_mean_scal j (-2 * sin (th j) * cos (th j)) _ _ (mean_zx th j)))) as X.
      assert (E : cos (th j) ^ 2 * zz th j + (sin (th j) ^ 2 * ((1 - zz th j) / 2) + -2 * sin (th j) * cos (th j) * 0) = zz th j * cos (th j) ^ 2 + (1 - zz th j) / 2 * sin (th j) ^ 2) by ring.
      rewrite E in X. revert X. apply is_mean_ext. intros t. ring. }
    split.
    + apply (mean_last j _ (fun t => (- vx (D0 th t j) * sin (th j) + vz (D0 th t j) * cos (th j)) ^ 2)); [|exact Z].
      intros t. set (c := (- vx (D0 th t j) * sin (th j) + vz (D0 th t j) * cos (th j)) ^ 2).
      apply (is_RInt_ext (fun x => c + 0 * cos (2 * PI * x) + 0 * sin (2 * PI * x))); [|apply wave_mean].
      intros x _. rewrite D0_next, D0_upd. unfold scatter1. cbn [vz]. unfold c. rring.
    + apply (mean_last j _ (fun t => / 2 + - / 2 * (- vx (D0 th t j) * sin (th j) + vz (D0 th t j) * cos (th j)) ^ 2)).
      * intros t. set (a := vx (D0 th t j) * cos (th j) + vz (D0 th t j) * sin (th j)). set (b := - vy (D0 th t j)).
        assert (EV : (a ^ 2 + b ^ 2) / 2 = / 2 + - / 2 * (- vx (D0 th t j) * sin (th j) + vz (D0 th t j) * cos (th j)) ^ 2).
        { pose proof (D0_unit th t j) as U. unfold dot in U. pose proof (sin2_cos2 (th j)) as S2. unfold Rsqr in S2. unfold a, b.
          set (x := vx (D0 th t j)) in *. set (y := vy (D0 th t j)) in *. set (z := vz (D0 th t j)) in *. set (s := sin (th j)) in *. set (c := cos (th j)) in *.
          enough (Q : (x * c + z * s) ^ 2 + y ^ 2 + (- x * s + z * c) ^ 2 = 1) by lra.
          transitivity ((x * x + z * z) * (s * s + c * c) + y * y); [ring|]. rewrite S2. lra. }
        rewrite <- EV. apply (is_RInt_ext (fun x => (a * cos (2 * PI * x) + b * sin (2 * PI * x)) ^ 2)); [|apply wave_square].
        intros x _. rewrite D0_next, D0_upd, upd_same. unfold scatter1. cbn [vx]. unfold a, b. rring.
      * pose proof (is_mean_plus _ _ _ _ _ (is_mean_const j (/ 2)) (is_mean_scal j (- / 2) _ _ Z)) as X.
        assert (E : / 2 + - / 2 * zz th (S j) = (1 - zz th (S j)) / 2) by field. rewrite E in X. exact X.
Qed.
(** The mean cosine between consecutive directions. *)
Lemma mean_persist th j : is_mean (S j) (fun t => dot (D0 th t (S j)) (D0 th t j)) (cos (th j) * zz th j).
Proof.
  apply mean_turn. pose proof (is_mean_plus _ _ _ _ _ (is_mean_scal j (- sin (th j)) _ _ (mean_zx th j)) (is_mean_scal j (cos (th j)) _ _ (proj1 (mean_xx th j)))) as X.
  assert (E : - sin (th j) * 0 + cos (th j) * zz th j = cos (th j) * zz th j) by ring. rewrite E in X. revert X. apply is_mean_ext. intros t. ring.
Qed.
Lemma zz_range th j : 0 <= zz th j <= 1.
Proof.
  induction j as [|j IH]; cbn [zz]; [lra|]. pose proof (sin2_cos2 (th j)) as S2. unfold Rsqr in S2.
  set (z := zz th j) in *. set (s := sin (th j)) in *. set (c := cos (th j)) in *.
  assert (0 <= s ^ 2) by apply pow2_ge_0. assert (0 <= c ^ 2) by apply pow2_ge_0. assert (s ^ 2 + c ^ 2 = 1) by lra. split; nra.
Qed.
Lemma zz_below th j : (0 < j)%nat -> (exists i, (i < j)%nat /\ sin (th i) <> 0) -> zz th j < 1.
Proof.
  intros _ (i & Hi & Hs). induction j as [|j IH]; [lia|]. cbn [zz]. pose proof (zz_range th j) as B. pose proof (sin2_cos2 (th j)) as S2. unfold Rsqr in S2.
  set (z := zz th j) in *. set (s := sin (th j)) in *. set (c := cos (th j)) in *.
  assert (S0 : s ^ 2 + c ^ 2 = 1) by lra. assert (0 <= s ^ 2) by apply pow2_ge_0. assert (0 <= c ^ 2) by apply pow2_ge_0.
  destruct (Nat.eq_dec i j) as [->|Hne].
  - assert (0 < s ^ 2) by (pose proof (pow_nonzero s 2 Hs); lra). nra.
  - specialize (IH ltac:(lia)). nra.
Qed.

(** Directions any number of scatterings apart. *)
Definition cosines (th : nat -> R) (i d : nat) : R := fold_right Rmult 1 (map (fun n => cos (th n)) (seq i d)).
Lemma cosines_S th i d : cosines th i (S d) = cos (th (i + d)%nat) * cosines th i d.
Proof.
  unfold cosines. rewrite seq_S, map_app, fold_right_app. cbn [map fold_right].
  generalize (map (fun n => cos (th n)) (seq i d)). intros l. induction l as [|a l IHl]; cbn [fold_right]; [ring|]. rewrite IHl. ring.
Qed.
Lemma corr_xy th i j (W : (nat -> R) -> R) : (i < j)%nat -> dep i W ->
  is_mean j (fun t => W t * vx (D0 th t j)) 0 /\ is_mean j (fun t => W t * vy (D0 th t j)) 0.
Proof.
  intros Hj HW. destruct j as [|j]; [lia|].
  assert (EW : forall t x, W (upd t j x) = W t) by (intros t x; apply HW; intros q Hq; apply upd_other; lia).
  split; (apply (mean_last j _ (fun t => 0)); [|apply is_mean_const]); intros t;
    set (a := vx (D0 th t j) * cos (th j) + vz (D0 th t j) * sin (th j)).
  - apply (is_RInt_ext (fun x => 0 + (W t * a) * cos (2 * PI * x) + (- W t * vy (D0 th t j)) * sin (2 * PI * x))); [|apply wave_mean].
    intros x _. rewrite D0_next, D0_upd, upd_same, EW. unfold scatter1. cbn [vx]. unfold a. rring.
  - apply (is_RInt_ext (fun x => 0 + (W t * vy (D0 th t j)) * cos (2 * PI * x) + (W t * a) * sin (2 * PI * x))); [|apply wave_mean].
    intros x _. rewrite D0_next, D0_upd, upd_same, EW. unfold scatter1. cbn [vy]. unfold a. rring.
Qed.
Lemma corr_z th i (W : (nat -> R) -> R) m : dep i W ->
  is_mean i (fun t => W t * vz (D0 th t i)) m -> is_mean i (fun t => W t * vx (D0 th t i)) 0 ->
  forall d, is_mean (i + d) (fun t => W t * vz (D0 th t (i + d))) (cosines th i d * m).
Proof.
  intros HW Hz Hx. induction d as [|d IH].
  - rewrite Nat.add_0_r. assert (E : cosines th i 0 * m = m) by (unfold cosines; cbn; ring). rewrite E. exact Hz.
  - rewrite Nat.add_succ_r. set (j := (i + d)%nat) in *. rewrite cosines_S. fold j.
    assert (EW : forall t x, W (upd t j x) = W t) by (intros t x; apply HW; intros q Hq; apply upd_other; unfold j; lia).
    assert (X : is_mean j (fun t => W t * vx (D0 th t j)) 0).
    { destruct d as [|d]; [unfold j; rewrite Nat.add_0_r; exact Hx|]. apply (corr_xy th i j W); [unfold j; lia|exact HW]. }
    apply (mean_last j _ (fun t => - sin (th j) * (W t * vx (D0 th t j)) + cos (th j) * (W t * vz (D0 th t j)))).
    + intros t. set (c := - sin (th j) * (W t * vx (D0 th t j)) + cos (th j) * (W t * vz (D0 th t j))).
      apply (is_RInt_ext (fun x => c + 0 * cos (2 * PI * x) + 0 * sin (2 * PI * x))); [|apply wave_mean].
      intros x _. rewrite D0_next, D0_upd, EW. unfold scatter1. cbn [vz]. unfold c. rring.
    + pose proof (is_mean_plus _ _ _ _ _ (is_mean_scal j (- sin (th j)) _ _ X) (is_mean_scal j (cos (th j)) _ _ IH)) as Q.
      assert (E : - sin (th j) * 0 + cos (th j) * (cosines th i d * m) = cos (th j) * cosines th i d * m) by ring. rewrite E in Q. exact Q.
Qed.
Lemma dep_comp th i (c : vec -> R) : dep i (fun t => c (D0 th t i)).
Proof. intros t t' H. now rewrite (D0_ext th t t' i H). Qed.
Lemma mean_corr th i d : (0 < d)%nat ->
  is_mean (i + d) (fun t => dot (D0 th t (i + d)) (D0 th t i)) (cosines th i d * zz th i).
Proof.
  intros Hd.
  assert (Z : is_mean (i + d) (fun t => vz (D0 th t i) * vz (D0 th t (i + d))) (cosines th i d * zz th i)).
  { apply corr_z; [apply (dep_comp th i vz)| |apply mean_zx].
    generalize (proj1 (mean_xx th i)). apply is_mean_ext. intros t. ring. }
  pose proof (proj1 (corr_xy th i (i + d) (fun t => vx (D0 th t i)) ltac:(lia) (dep_comp th i vx))) as X.
  pose proof (proj2 (corr_xy th i (i + d) (fun t => vy (D0 th t i)) ltac:(lia) (dep_comp th i vy))) as Y.
  pose proof (is_mean_plus _ _ _ _ _ X (is_mean_plus _ _ _ _ _ Y Z)) as Q.
  assert (E : 0 + (0 + cosines th i d * zz th i) = cosines th i d * zz th i) by ring. rewrite E in Q. revert Q. apply is_mean_ext. intros t. unfold dot. ring.
Qed.

(** Local frame: consecutive directions, and the mean after any number. *)
Definition L0 (f : frame) (th t : nat -> R) (j : nat) : frame := fr f (fun n => (th n, 2 * PI * t n)) j.
Lemma lab_ok : orthonormal lab.
Proof. unfold orthonormal, lab, fr_1, fr_2, fr_dir, dot. cbn. repeat split; ring. Qed.
Lemma L0_ok f th t j : orthonormal f -> orthonormal (L0 f th t j).
Proof. intros H. unfold L0. induction j as [|j IH]; [exact H|]. cbn [fr]. now apply turn_orthonormal. Qed.
Lemma L0_ext f th t t' j : (forall i, (i < j)%nat -> t i = t' i) -> L0 f th t j = L0 f th t' j.
Proof. intros H. unfold L0. apply fr_ext. intros i Hi. now rewrite H. Qed.
Lemma local_corr f th i d : orthonormal f -> is_mean (i + d) (fun t => dot (fr_dir (L0 f th t (i + d))) (fr_dir (L0 f th t i))) (cosines th i d).
Proof.
  intros Hf. induction d as [|d IH].
  - rewrite Nat.add_0_r. assert (E : cosines th i 0 = 1) by reflexivity. rewrite E.
    apply (is_mean_ext _ (fun _ => 1)); [|apply is_mean_const]. intros t. symmetry. apply (L0_ok f th t i Hf).
  - rewrite Nat.add_succ_r, cosines_S. set (j := (i + d)%nat) in *.
    apply (mean_last j _ (fun t => cos (th j) * dot (fr_dir (L0 f th t j)) (fr_dir (L0 f th t i)))).
    + intros t. set (F := L0 f th t j). set (K := fr_dir (L0 f th t i)).
      apply (is_RInt_ext (fun x => cos (th j) * dot (fr_dir F) K + (sin (th j) * dot (fr_1 F) K) * cos (2 * PI * x) + (sin (th j) * dot (fr_2 F) K) * sin (2 * PI * x))); [|apply wave_mean].
      intros x _. assert (E1 : L0 f th (upd t j x) (S j) = turn_frame F (th j) (2 * PI * x)).
      { change (L0 f th (upd t j x) (S j)) with (turn_frame (L0 f th (upd t j x) j) (th j) (2 * PI * upd t j x j)). rewrite upd_same.
        rewrite (L0_ext f th (upd t j x) t j) by (intros q Hq; apply upd_other; lia). reflexivity. }
      assert (E2 : L0 f th (upd t j x) i = L0 f th t i) by (apply L0_ext; intros q Hq; apply upd_other; unfold j; lia).
      rewrite E1, E2. fold K.
      assert (E3 : fr_dir (turn_frame F (th j) (2 * PI * x)) = vadd (vscale (sin (th j)) (vadd (vscale (cos (2 * PI * x)) (fr_1 F)) (vscale (sin (2 * PI * x)) (fr_2 F)))) (vscale (cos (th j)) (fr_dir F))) by reflexivity.
      rewrite E3. unfold dot, vadd, vscale. cbn [vx vy vz]. rring.
    + apply is_mean_scal, IH.
Qed.
(** Launched at a fixed azimuth. *)
Lemma fixed_azimuth_local f th0 : orthonormal f -> is_mean 1 (fun t => vz (fr_dir (turn_frame f th0 (2 * PI * t 0%nat)))) (vz (fr_dir f) * cos th0).
Proof.
  intros _. apply (mean_last 0 _ (fun _ => vz (fr_dir f) * cos th0)); [|cbn; reflexivity].
  intros t. apply (is_RInt_ext (fun x => vz (fr_dir f) * cos th0 + (sin th0 * vz (fr_1 f)) * cos (2 * PI * x) + (sin th0 * vz (fr_2 f)) * sin (2 * PI * x))); [|apply wave_mean].
  intros x _. rewrite upd_same.
  assert (E3 : fr_dir (turn_frame f th0 (2 * PI * x)) = vadd (vscale (sin th0) (vadd (vscale (cos (2 * PI * x)) (fr_1 f)) (vscale (sin (2 * PI * x)) (fr_2 f)))) (vscale (cos th0) (fr_dir f))) by reflexivity.
  rewrite E3. unfold vadd, vscale. cbn [vx vy vz]. rring.
Qed.
