(** C173: flat layers and the direction of light. *)
From Coq Require Import Lra Lia Psatz Reals List.
From Verif Require Import Num Spec Spec_layers M_init M_model M_detector L_num L_init.
Import ListNotations.
Open Scope R_scope.

(** refraction() called surface by surface; NaN stays NaN. *)
Fixpoint refract_all (t n : R) (ns : list R) : num :=
  match ns with
  | [] => Some t
  | m :: rest => match refraction t n m with Some v => refract_all v m rest | None => None end
  end.

Lemma Rltb_cases a b : (Rltb a b = true /\ a < b) \/ (Rltb a b = false /\ b <= a).
Proof. unfold Rltb. destruct (Rlt_dec a b); [left|right]; split; auto; lra. Qed.
Lemma refr_eq t n m v k : 0 < m -> 0 < k -> refraction t n m = Some v -> refraction v m k = refraction t n k.
Proof.
  intros Hm Hk H. destruct (refraction_some n m t v Hm H) as [_ S]. unfold snell in S. unfold refraction. cbv zeta.
  replace (m / k * sin v) with (n / k * sin t) by (field_simplify_eq; [lra|lra]). reflexivity.
Qed.
Lemma refr_none_iff t n m : 0 < n -> 0 < m -> (refraction t n m = None <-> m < n * Rabs (sin t)).
Proof.
  intros Hn Hm. unfold refraction. cbv zeta. assert (E : Rabs (n / m * sin t) = n * Rabs (sin t) / m).
  { rewrite Rabs_mult, (Rabs_pos_eq (n / m)) by (left; now apply Rdiv_lt_0_compat). field. lra. }
  rewrite E. destruct (Rltb_cases 1 (n * Rabs (sin t) / m)) as [[-> L]|[-> L]].
  - split; [intros _|reflexivity]. apply (Rmult_lt_compat_r m) in L; [|lra]. unfold Rdiv in L. rewrite Rmult_assoc, Rinv_l in L by lra. lra.
  - split; [discriminate|]. intros K. exfalso. apply (Rmult_le_compat_r m) in L; [|lra]. unfold Rdiv in L. rewrite Rmult_assoc, Rinv_l in L by lra. lra.
Qed.
Lemma refr_sin t n m v : 0 < m -> refraction t n m = Some v -> m * Rabs (sin v) = n * Rabs (sin t) \/ n < 0.
Proof.
  intros Hm H. destruct (Rlt_le_dec n 0) as [Q|Q]; [now right|left]. destruct (refraction_some n m t v Hm H) as [_ S]. unfold snell in S.
  rewrite <- (Rabs_pos_eq n), <- (Rabs_pos_eq m), <- !Rabs_mult, S by lra. reflexivity.
Qed.

(** C173.  Light that refraction() takes through any number of parallel layers, one
    surface after the other, comes out at the angle refraction() gives for the
    first and the last medium alone. *)
Theorem C173_layers : forall ns t n m, 0 < n -> 0 < m -> List.Forall (fun x => 0 < x) ns ->
  (forall u, refract_all t n (ns ++ [m]) = Some u -> refraction t n m = Some u)
  /\ (refract_all t n (ns ++ [m]) = None <-> exists x, In x (ns ++ [m]) /\ x < n * Rabs (sin t)).
Proof.
  induction ns as [|a ns IH]; intros t n m Hn Hm Hp; cbn [app refract_all].
  - split.
    + intros u. destruct (refraction t n m); auto.
    + pose proof (refr_none_iff t n m Hn Hm) as K. split.
      * intros H. exists m. split; [now left|]. apply K. destruct (refraction t n m); [discriminate|reflexivity].
      * intros (x & [<-|[]] & L). apply K in L. now rewrite L.
  - inversion Hp as [|? ? Ha Hp']; subst. pose proof (refr_none_iff t n a Hn Ha) as K. destruct (refraction t n a) as [v|] eqn:E.
    + destruct (IH v a m Ha Hm Hp') as [I1 I2]. assert (Q : a * Rabs (sin v) = n * Rabs (sin t)) by (destruct (refr_sin t n a v Ha E) as [Q|Q]; [exact Q|lra]). split.
      * intros u H. rewrite <- (refr_eq t n a v m Ha Hm E). now apply I1.
      * rewrite I2, Q. split; [intros (x & Hx & L); exists x; split; [now right|exact L]|]. intros (x & [<-|Hx] & L); [|now exists x].
        apply K in L. discriminate.
    + split; [discriminate|]. split; [|reflexivity]. intros _. exists a. split; [now left|]. now apply K.
Qed.
Print Assumptions C173_layers.

(** These are the rays that obey Snell's law at every surface. *)
Theorem C173_rays : forall ns t n u, List.Forall (fun x => 0 < x) ns ->
  (refract_all t n ns = Some u <-> through_layers t n ns u).
Proof.
  induction ns as [|a ns IH]; intros t n u Hp; cbn [refract_all].
  - split; [intros Q; injection Q as <-; constructor|]. intros Q. inversion Q. reflexivity.
  - inversion Hp as [|? ? Ha Hp']; subst. split.
    + destruct (refraction t n a) as [v|] eqn:E; [|discriminate]. intros H. destruct (refraction_some n a t v Ha E) as [B S].
      apply one_layer with v; try assumption. now apply IH.
    + intros Q. inversion Q as [|? ? ? ? v ? S B W]; subst. assert (E : refraction t n a = Some v).
      { unfold refraction. cbv zeta. unfold snell in S. replace (n / a * sin t) with (sin v) by (field_simplify_eq; [lra|lra]).
        rewrite (proj2 (Rltb_false _ _)); [|pose proof (SIN_bound v); apply Rabs_le; lra]. rewrite asin_sin by lra. reflexivity. }
      rewrite E. now apply IH.
Qed.
Print Assumptions C173_rays.

Lemma refr_val t n m v : 0 < m -> refraction t n m = Some v -> - (PI / 2) <= v <= PI / 2 /\ sin v = n / m * sin t.
Proof. intros Hm H. destruct (refraction_some n m t v Hm H) as [B S]. split; [exact B|]. unfold snell in S. field_simplify_eq; lra. Qed.
Lemma sin_lt_iff a b : - (PI / 2) <= a <= PI / 2 -> - (PI / 2) <= b <= PI / 2 -> (sin a < sin b <-> a < b).
Proof. intros. split; intros; [apply sin_increasing_0|apply sin_increasing_1]; lra. Qed.

(** Steeper light stays steeper. *)
Theorem C173_keeps_order : forall n m t1 t2 u1 u2, 0 < n -> 0 < m -> - (PI / 2) <= t1 <= PI / 2 -> - (PI / 2) <= t2 <= PI / 2 ->
  refraction t1 n m = Some u1 -> refraction t2 n m = Some u2 -> (t1 < t2 <-> u1 < u2).
Proof.
  intros n m t1 t2 u1 u2 Hn Hm H1 H2 E1 E2. destruct (refr_val _ _ _ _ Hm E1) as [B1 S1]. destruct (refr_val _ _ _ _ Hm E2) as [B2 S2].
  rewrite <- (sin_lt_iff t1 t2), <- (sin_lt_iff u1 u2), S1, S2 by assumption. pose proof (Rdiv_lt_0_compat n m Hn Hm) as Q. split; intros; [nra|].
  apply (Rmult_lt_reg_l (n / m)); assumption.
Qed.
Print Assumptions C173_keeps_order.

(** Light bends towards the normal in a denser medium, where it is never totally
    reflected, and away from it in a thinner one. *)
Theorem C173_bends : forall n m t, 0 < n -> 0 < m -> 0 < t < PI / 2 ->
  (n < m -> exists u, refraction t n m = Some u /\ 0 < u < t)
  /\ (forall u, refraction t n m = Some u -> (0 < u) /\ (m < n <-> t < u)).
Proof.
  intros n m t Hn Hm Ht. assert (Z0 : 0 < sin t) by (apply sin_gt_0; pose proof PI_RGT_0; lra).
  assert (Z1 : sin t < 1) by (rewrite <- sin_PI2; apply sin_increasing_1; lra). pose proof (Rdiv_lt_0_compat n m Hn Hm) as Q0.
  assert (K : forall u, refraction t n m = Some u -> 0 < u /\ (m < n <-> t < u) /\ (n < m -> u < t)).
  { intros u E. destruct (refr_val _ _ _ _ Hm E) as [B S]. assert (P : 0 < u) by (apply (sin_lt_iff 0 u); [lra|lra|]; rewrite sin_0, S; nra).
    assert (R1 : n / m * m = n) by (field; lra). split; [exact P|]. split.
    - rewrite <- (sin_lt_iff t u) by lra. rewrite S. split; intros L; [assert (1 < n / m) by (apply (Rmult_lt_reg_r m); lra); nra|].
      assert (1 < n / m) by (apply (Rmult_lt_reg_r (sin t)); lra). nra.
    - intros L. apply (sin_lt_iff u t); [lra|lra|]. rewrite S. assert (n / m < 1) by (apply (Rmult_lt_reg_r m); lra). nra. }
  split.
  - intros L. destruct (refraction t n m) as [u|] eqn:E.
    + exists u. split; [reflexivity|]. destruct (K u eq_refl) as (P & _ & W). split; [exact P|now apply W].
    + apply (refr_none_iff t n m Hn Hm) in E. rewrite Rabs_pos_eq in E by lra. nra.
  - intros u E. destruct (K u E) as (P & W & _). auto.
Qed.
Print Assumptions C173_bends.

(** The detection aperture.  A trajectory that leaves a film counts exactly if
    n_sample sin(theta) <= n_medium sin(detection angle), theta its angle in the
    film: the aperture's numerical aperture decides. *)
Theorem C173_aperture : forall n m det angles weights i, 0 < n -> 0 < m -> 0 <= det <= PI / 2 ->
  length angles = length weights -> (i < length weights)%nat -> 0 <= nth i angles 0 <= PI / 2 ->
  nth i (detect_correct angles weights n m det) 0 = if Rleb (n * sin (nth i angles 0)) (m * sin det) then nth i weights 0 else 0.
Proof.
  intros n m det angles. unfold detect_correct. induction angles as [|t angles IH]; intros weights i Hn Hm Hd Hl Hi Ht; destruct weights as [|w weights]; try (cbn in Hl, Hi; lia).
  destruct i as [|i]; cbn [map2 nth].
  - cbn [nth] in Ht. clear IH. unfold detect1. assert (Z : 0 <= sin t) by (apply sin_ge_0; pose proof PI_RGT_0; lra).
    assert (Zd : sin det <= 1) by apply SIN_bound. destruct (refraction t n m) as [u|] eqn:E.
    + destruct (refr_val _ _ _ _ Hm E) as [B S]. assert (Q : n * sin t = m * sin u) by (rewrite S; field; lra). rewrite Q.
      assert (B' : - (PI / 2) <= det <= PI / 2) by lra.
      destruct (Rltb_cases det u) as [[-> L]|[-> L]].
      * rewrite (proj2 (Rleb_false _ _)); [reflexivity|]. apply Rmult_lt_compat_l; [exact Hm|]. now apply sin_lt_iff.
      * rewrite (proj2 (Rleb_true _ _)); [reflexivity|]. apply Rmult_le_compat_l; [lra|]. apply sin_incr_1; lra.
    + apply (refr_none_iff t n m Hn Hm) in E. rewrite Rabs_pos_eq in E by lra. rewrite (proj2 (Rleb_false _ _)); [reflexivity|]. nra.
  - apply IH; cbn in *; try assumption; lia.
Qed.
Print Assumptions C173_aperture.

(** A ray at 30 degrees in glass of index 3/2, through water, into air. *)
Example C173_case : refract_all (PI / 6) (3 / 2) [4 / 3; 1] = Some (asin (3 / 4)) /\ refraction (PI / 6) (3 / 2) 1 = Some (asin (3 / 4))
  /\ refract_all (PI / 6) 3 [4 / 3; 2] = None /\ refraction (PI / 6) 3 2 = Some (asin (3 / 4)).
Proof.
  assert (S : sin (PI / 6) = 1 / 2) by apply sin_PI6.
  assert (D : refraction (PI / 6) (3 / 2) 1 = Some (asin (3 / 4))).
  { unfold refraction. cbv zeta. rewrite S. replace (3 / 2 / 1 * (1 / 2)) with (3 / 4) by field. rewrite (proj2 (Rltb_false _ _)); [reflexivity|]. apply Rabs_le. lra. }
  split; [|split; [exact D|split]].
  - assert (P : 0 < 3 / 2 /\ 0 < 1) by lra. destruct (refract_all (PI / 6) (3 / 2) [4 / 3; 1]) as [u|] eqn:E.
    + pose proof (proj1 (C173_layers [4 / 3] (PI / 6) (3 / 2) 1 (proj1 P) (proj2 P) ltac:(constructor; [lra|constructor])) u E) as K. rewrite D in K. now injection K as <-.
    + apply (proj2 (C173_layers [4 / 3] (PI / 6) (3 / 2) 1 (proj1 P) (proj2 P) ltac:(constructor; [lra|constructor]))) in E. destruct E as (x & [<-|[<-|[]]] & L); rewrite S, Rabs_pos_eq in L; lra.
  - apply (proj2 (C173_layers [4 / 3] (PI / 6) 3 2 ltac:(lra) ltac:(lra) ltac:(constructor; [lra|constructor]))). exists (4 / 3). split; [now left|]. rewrite S, Rabs_pos_eq; lra.
  - unfold refraction. cbv zeta. rewrite S. replace (3 / 2 * (1 / 2)) with (3 / 4) by field. rewrite (proj2 (Rltb_false _ _)); [reflexivity|]. apply Rabs_le. lra.
Qed.
