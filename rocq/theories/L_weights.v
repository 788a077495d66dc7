(** Proofs about pass fractions and detection (C27-C30). *)
From Coq Require Import Lra Lia Psatz.
From Verif Require Export L_exits.
Open Scope R_scope.

Lemma EPS_pos : 0 < EPS.
Proof. unfold EPS. apply Rinv_0_lt_compat, pow_lt; lra. Qed.

(* ------------------------------------------------------------------ *)
(** * Lists that are maps over one index list *)

Lemma map2_same {A B C} (f : A -> B -> C) (g : A -> B) l :
  map2 f l (map g l) = map (fun a => f a (g a)) l.
Proof. induction l as [|a l IH]; cbn; congruence. Qed.
Lemma map3_map {A B C D E} (f : B -> C -> D -> E) (g : A -> B) (h : A -> C) (k : A -> D) l :
  map3 f (map g l) (map h l) (map k l) = map (fun a => f (g a) (h a) (k a)) l.
Proof. induction l as [|a l IH]; cbn; congruence. Qed.

(* ------------------------------------------------------------------ *)
(** * fresnel_pass_frac *)

(** One angle of [fresnel_pass_frac]. *)
Definition pf1 (nb : R) (ni : option R) (na th : R) : R :=
  let n := match ni with Some n => n | None => nb end in
  let ti := theta_inside nb n th in
  let t1 := fresnel_trans1 nb n th in
  let t2 := fresnel_trans1 n na ti in
  let r1 := fresnel_refl1 n na ti in
  let r2 := fresnel_refl1 n nb ti in
  (fst t1 + snd t1) * (fst t2 + snd t2) / 4
  / (1 - (fst r1 + snd r1) * (fst r2 + snd r2) / 4 + EPS).

Lemma theta_inside_upper nb n th : theta_inside nb n th <= PI / 2.
Proof.
  unfold theta_inside. pose proof PI_RGT_0.
  destruct (refraction th nb n) as [t|] eqn:E; [|lra].
  unfold refraction in E. destruct (Rltb _ _); [discriminate|]. inversion E.
  apply asin_bound.
Qed.
Lemma theta_inside_range nb n th :
  0 < nb -> 0 < n -> 0 <= th <= PI / 2 -> 0 <= theta_inside nb n th <= PI / 2.
Proof.
  intros Hb Hn Ht. split; [|apply theta_inside_upper].
  unfold theta_inside. pose proof PI_RGT_0.
  destruct (refraction th nb n) as [t|] eqn:E; [|lra].
  destruct (refraction_some nb n th t Hn E) as [Hr Hs].
  destruct (Rle_lt_dec 0 t) as [|Hneg]; [assumption|exfalso].
  assert (sin t < 0) by (apply sin_lt_0_var; lra).
  assert (0 <= sin th) by (apply sin_ge_0; lra).
  unfold snell in Hs. nra.
Qed.

Lemma no_big (l : list R) : Forall (fun t => t <= PI / 2) l ->
  existsb (fun t => Rltb (PI / 2) t) l = false.
Proof.
  induction 1 as [|t l Ht Hl IH]; [reflexivity|]. cbn. rewrite IH.
  replace (Rltb (PI / 2) t) with false; [reflexivity|]. symmetry; now apply Rltb_false.
Qed.

Lemma pass_frac_err nb ni na ths :
  Exists (fun t => PI / 2 < t) ths -> fresnel_pass_frac nb ni na ths = Err ValueError.
Proof.
  intros H. unfold fresnel_pass_frac, fresnel_transmission at 1.
  rewrite (proj2 (fresnel_error_iff nb _ ths) H). reflexivity.
Qed.

Lemma pass_frac_ok nb ni na ths :
  Forall (fun t => t <= PI / 2) ths ->
  fresnel_pass_frac nb ni na ths = Ok (map (pf1 nb ni na) ths).
Proof.
  intros H. unfold fresnel_pass_frac, fresnel_transmission, fresnel_reflection.
  set (n := match ni with Some n => n | None => nb end).
  rewrite (no_big ths H).
  rewrite (no_big (map (theta_inside nb n) ths)).
  2: { apply Forall_map. apply Forall_forall. intros; apply theta_inside_upper. }
  cbn [bind fst snd]. unfold avg2. cbn [fst snd].
  f_equal. rewrite !map_map. rewrite !map2_map_r. apply map_ext. intros th.
  reflexivity.
Qed.

Lemma pass_frac_inv nb ni na ths l :
  fresnel_pass_frac nb ni na ths = Ok l ->
  l = map (pf1 nb ni na) ths /\ Forall (fun t => t <= PI / 2) ths.
Proof.
  intros H.
  destruct (Exists_dec (fun t => PI / 2 < t) ths (fun t => Rlt_dec (PI / 2) t)) as [He|He].
  - rewrite pass_frac_err in H by exact He. discriminate.
  - apply Forall_Exists_neg in He.
    assert (Hf : Forall (fun t => t <= PI / 2) ths).
    { eapply Forall_impl; [|exact He]. cbn. intros; lra. }
    rewrite pass_frac_ok in H by exact Hf. inversion H. auto.
Qed.

Lemma trans1_fraction n1 n2 t : 0 < n1 -> 0 < n2 -> 0 <= t <= PI / 2 ->
  fraction (fst (fresnel_trans1 n1 n2 t)) /\ fraction (snd (fresnel_trans1 n1 n2 t)).
Proof.
  intros H1 H2 Ht. pose proof PI_RGT_0.
  destruct (fresnel1_fraction n1 n2 t H1 H2 ltac:(lra)) as [Ha Hb].
  unfold fresnel_trans1, fraction in *. cbn. lra.
Qed.

Lemma pf1_bounds nb ni na th :
  0 < nb -> (forall n, ni = Some n -> 0 < n) -> 0 < na -> 0 <= th <= PI / 2 ->
  0 <= pf1 nb ni na th < 1.
Proof.
  intros Hb Hi Ha Ht. unfold pf1.
  set (n := match ni with Some n => n | None => nb end).
  assert (Hn : 0 < n) by (unfold n; destruct ni; [now apply Hi|exact Hb]).
  pose proof (theta_inside_range nb n th Hb Hn Ht) as Hti.
  set (ti := theta_inside nb n th) in *.
  pose proof PI_RGT_0 as Hpi.
  destruct (trans1_fraction nb n th Hb Hn Ht) as [A1 A2].
  destruct (fresnel1_fraction n na ti Hn Ha ltac:(lra)) as [B1 B2].
  destruct (fresnel1_fraction n nb ti Hn Hb ltac:(lra)) as [C1 C2].
  replace (fst (fresnel_trans1 n na ti) + snd (fresnel_trans1 n na ti))
    with (1 - fst (fresnel_refl1 n na ti) + (1 - snd (fresnel_refl1 n na ti)))
    by (unfold fresnel_trans1; cbn [fst snd]; ring).
  set (a := (fst (fresnel_trans1 nb n th) + snd (fresnel_trans1 nb n th))) in *.
  set (r1 := fst (fresnel_refl1 n na ti)) in *. set (r2 := snd (fresnel_refl1 n na ti)) in *.
  set (s1 := fst (fresnel_refl1 n nb ti)) in *. set (s2 := snd (fresnel_refl1 n nb ti)) in *.
  unfold fraction in *. pose proof EPS_pos.
  assert (Ha2 : 0 <= a <= 2) by (unfold a; lra).
  set (u := 2 - (r1 + r2)). assert (Hu : 0 <= u <= 2) by (unfold u; lra).
  replace (1 - r1 + (1 - r2)) with u by (unfold u; ring).
  assert (Hden : u / 2 <= 1 - (r1 + r2) * (s1 + s2) / 4) by (unfold u; nra).
  set (d := 1 - (r1 + r2) * (s1 + s2) / 4) in *.
  assert (Hd : 0 < d + EPS) by lra.
  split.
  - apply Rmult_le_pos; [nra|]. apply Rlt_le, Rinv_0_lt_compat, Hd.
  - apply (Rmult_lt_reg_r (d + EPS)); [exact Hd|].
    assert (Hau : a * u <= 2 * u) by (apply Rmult_le_compat_r; lra).
    replace (a * u / 4 / (d + EPS) * (d + EPS)) with (a * u / 4) by (field; lra). lra.
Qed.

(** Totally reflected rays do not pass. *)
Lemma pf1_tir nb ni na th :
  0 < nb -> (forall n, ni = Some n -> 0 < n) -> 0 < na -> 0 <= th <= PI / 2 ->
  na <= nb * sin th -> pf1 nb ni na th = 0.
Proof.
  intros Hb Hi Ha Ht Htir. unfold pf1.
  set (n := match ni with Some n => n | None => nb end).
  assert (Hn : 0 < n) by (unfold n; destruct ni; [now apply Hi|exact Hb]).
  pose proof PI_RGT_0 as Hpi.
  assert (Hsin : sin th <= 1) by apply SIN_bound.
  destruct (Rlt_le_dec n (nb * sin th)) as [Hin|Hin].
  - (* total reflection at the inner face *)
    assert (Hlt : n / nb < sin th).
    { apply (Rmult_lt_reg_r nb); [lra|]. unfold Rdiv. rewrite Rmult_assoc, Rinv_l by lra. lra. }
    assert (H0 : 0 < n / nb) by (apply Rdiv_lt_0_compat; lra).
    assert (Hc : fresnel_trans1 nb n th = (0, 0)).
    { unfold fresnel_trans1, fresnel_refl1.
      replace (Rltb (n / nb) 1) with true by (symmetry; apply Rltb_true; lra).
      replace (Rleb (asin (n / nb)) th) with true.
      - cbn. f_equal; ring.
      - symmetry. apply Rleb_true.
        destruct (Rle_lt_dec (asin (n / nb)) th) as [|Hx]; [assumption|exfalso].
        pose proof (asin_bound (n / nb)).
        assert (sin th < sin (asin (n / nb))) by (apply sin_increasing_1; lra).
        rewrite sin_asin in * by lra. lra. }
    rewrite Hc. cbn [fst snd]. unfold Rdiv. ring.
  - assert (Href : refraction th nb n = Some (asin (nb / n * sin th))).
    { unfold refraction. replace (Rltb 1 (Rabs (nb / n * sin th))) with false; [reflexivity|].
      symmetry. apply Rltb_false.
      assert (0 <= sin th) by (apply sin_ge_0; lra).
      rewrite Rabs_pos_eq.
      - replace (nb / n * sin th) with (nb * sin th / n) by (field; lra).
        apply (Rmult_le_reg_r n); [lra|]. unfold Rdiv. rewrite Rmult_assoc, Rinv_l; lra.
      - apply Rmult_le_pos; [|assumption]. apply Rlt_le, Rdiv_lt_0_compat; lra. }
    destruct (refraction_some nb n th _ Hn Href) as [Hr Hs].
    unfold theta_inside. rewrite Href.
    set (ti := asin (nb / n * sin th)) in *. unfold snell in Hs.
    assert (Hc : fresnel_trans1 n na ti = (0, 0)).
    { unfold fresnel_trans1, fresnel_refl1.
      destruct (Rlt_le_dec na n) as [Hlt|Hge].
      - assert (Hq : na / n < 1).
        { apply (Rmult_lt_reg_r n); [lra|]. unfold Rdiv. rewrite Rmult_assoc, Rinv_l by lra. lra. }
        assert (Hq0 : 0 < na / n) by (apply Rdiv_lt_0_compat; lra).
        replace (Rltb (na / n) 1) with true by (symmetry; now apply Rltb_true).
        replace (Rleb (asin (na / n)) ti) with true.
        + cbn. f_equal; ring.
        + symmetry. apply Rleb_true.
          destruct (Rle_lt_dec (asin (na / n)) ti) as [|Hx]; [assumption|exfalso].
          pose proof (asin_bound (na / n)).
          assert (Hs2 : sin ti < sin (asin (na / n))) by (apply sin_increasing_1; lra).
          rewrite sin_asin in Hs2 by lra.
          assert (n * sin ti < n * (na / n)) by (apply Rmult_lt_compat_l; lra).
          replace (n * (na / n)) with na in * by (field; lra). lra.
      - assert (na = n) by nra. subst na.
        assert (Hone : sin ti = 1) by nra.
        assert (Hcos : cos ti = 0).
        { pose proof (sin2_cos2 ti) as Hsc. unfold Rsqr in Hsc. rewrite Hone in Hsc. nra. }
        replace (n / n) with 1 by (field; lra).
        replace (Rltb 1 1) with false by (symmetry; apply Rltb_false; lra).
        cbn [andb]. rewrite Hone, Hcos.
        replace (n ^ 2 - (n * 1) ^ 2) with 0 by ring. rewrite Rabs_R0, sqrt_0.
        unfold abs_ratio_sq.
        replace (Reqb (n * 0 + n ^ 2 * 0) 0) with true by (symmetry; apply Reqb_true; ring).
        replace (Reqb (n * 0 + 0) 0) with true by (symmetry; apply Reqb_true; ring).
        cbn [fst snd]. f_equal; ring. }
    rewrite Hc. cbn [fst snd]. unfold Rdiv. ring.
Qed.

(** Rays below every critical angle do pass in part. *)
Lemma trans1_pos n1 n2 t : 0 < n1 -> 0 < n2 -> 0 <= t < PI / 2 -> n1 * sin t < n2 ->
  0 < fst (fresnel_trans1 n1 n2 t) /\ 0 < snd (fresnel_trans1 n1 n2 t).
Proof.
  intros H1 H2 Ht Hs.
  destruct (Rle_lt_dec n1 n2) as [Hle|Hlt].
  - destruct (fresnel_not_total n1 n2 t H1 H2 Ht (or_introl Hle)) as [rp [rs [He [Hp Hq]]]].
    unfold fresnel_reflection in He. rewrite no_big in He by (repeat constructor; lra).
    cbn in He. injection He as E1 E2. unfold fresnel_trans1. cbn [fst snd]. rewrite E1, E2. lra.
  - assert (Hc : t < asin (n2 / n1)).
    { destruct (Rlt_le_dec t (asin (n2 / n1))) as [|Hx]; [assumption|exfalso].
      assert (0 < n2 / n1) by (apply Rdiv_lt_0_compat; lra).
      assert (n2 / n1 < 1).
      { apply (Rmult_lt_reg_r n1); [lra|]. unfold Rdiv. rewrite Rmult_assoc, Rinv_l by lra. lra. }
      pose proof (asin_bound (n2 / n1)).
      assert (Hi : sin (asin (n2 / n1)) <= sin t) by (apply sin_incr_1; lra).
      rewrite sin_asin in Hi by lra.
      assert (n1 * (n2 / n1) <= n1 * sin t) by (apply Rmult_le_compat_l; lra).
      replace (n1 * (n2 / n1)) with n2 in * by (field; lra). lra. }
    destruct (fresnel_not_total n1 n2 t H1 H2 Ht (or_intror (conj Hlt Hc))) as [rp [rs [He [Hp Hq]]]].
    unfold fresnel_reflection in He. rewrite no_big in He by (repeat constructor; lra).
    cbn in He. injection He as E1 E2. unfold fresnel_trans1. cbn [fst snd]. rewrite E1, E2. lra.
Qed.

Lemma pf1_pos nb ni na th :
  0 < nb -> (forall n, ni = Some n -> 0 < n /\ nb * sin th < n) -> 0 < na ->
  0 <= th < PI / 2 -> nb * sin th < na -> 0 < pf1 nb ni na th.
Proof.
  intros Hb Hi Ha Ht Hs. unfold pf1.
  set (n := match ni with Some n => n | None => nb end).
  pose proof PI_RGT_0 as Hpi.
  assert (Hsin1 : sin th < 1).
  { rewrite <- sin_PI2. apply sin_increasing_1; lra. }
  assert (Hsin0 : 0 <= sin th) by (apply sin_ge_0; lra).
  assert (Hn : 0 < n /\ nb * sin th < n).
  { unfold n; destruct ni; [now apply Hi|]. split; nra. }
  destruct Hn as [Hn Hnin].
  destruct (trans1_pos nb n th Hb Hn Ht Hnin) as [A1 A2].
  assert (Href : refraction th nb n = Some (asin (nb / n * sin th))).
  { unfold refraction. replace (Rltb 1 (Rabs (nb / n * sin th))) with false; [reflexivity|].
    symmetry. apply Rltb_false. rewrite Rabs_pos_eq.
    - replace (nb / n * sin th) with (nb * sin th / n) by (field; lra).
      apply (Rmult_le_reg_r n); [lra|]. unfold Rdiv. rewrite Rmult_assoc, Rinv_l; lra.
    - apply Rmult_le_pos; [|assumption]. apply Rlt_le, Rdiv_lt_0_compat; lra. }
  pose proof (theta_inside_range nb n th Hb Hn ltac:(lra)) as Hti.
  destruct (refraction_some nb n th _ Hn Href) as [_ Hsn].
  assert (Eti : theta_inside nb n th = asin (nb / n * sin th)) by (unfold theta_inside; now rewrite Href).
  rewrite <- Eti in Hsn. unfold snell in Hsn.
  set (ti := theta_inside nb n th) in *.
  assert (Hti2 : ti < PI / 2).
  { destruct Hti as [_ [H|H]]; [exact H|exfalso]. rewrite H, sin_PI2 in Hsn. lra. }
  destruct (trans1_pos n na ti Hn Ha ltac:(lra) ltac:(lra)) as [B1 B2].
  destruct (fresnel1_fraction n na ti Hn Ha ltac:(lra)) as [R1 R2].
  destruct (fresnel1_fraction n nb ti Hn Hb ltac:(lra)) as [S1 S2].
  unfold fraction in *. pose proof EPS_pos.
  apply Rdiv_lt_0_compat.
  - apply Rmult_lt_0_compat; [|lra]. apply Rmult_lt_0_compat; lra.
  - nra.
Qed.

(* ------------------------------------------------------------------ *)
(** * detect_correct *)

Lemma detect1_cases nb na th angle w :
  detect1 nb na th angle w = w \/ detect1 nb na th angle w = 0.
Proof. unfold detect1. destruct (refraction _ _ _); [destruct (Rltb _ _)|]; auto. Qed.

Lemma detect1_spec nb na th angle w :
  w <> 0 ->
  (detect1 nb na th angle w = w
   <-> exists t, refraction angle nb na = Some t /\ t <= th).
Proof.
  intros Hw. unfold detect1. destruct (refraction angle nb na) as [t|].
  - destruct (Rltb th t) eqn:E.
    + apply Rltb_true in E. split; [intros H; congruence|].
      intros [t' [H1 H2]]. inversion H1; subst. lra.
    + apply Rltb_false in E. split; [|reflexivity]. intros _. exists t; auto.
  - split; [intros H; congruence|]. intros [t [H _]]; discriminate.
Qed.

Lemma detect1_mono nb na th1 th2 angle w :
  0 <= w -> th1 <= th2 -> detect1 nb na th1 angle w <= detect1 nb na th2 angle w.
Proof.
  intros Hw Ht. unfold detect1. destruct (refraction angle nb na) as [t|]; [|lra].
  destruct (Rltb th1 t) eqn:E1; destruct (Rltb th2 t) eqn:E2; try lra.
  apply Rltb_true in E2. apply Rltb_false in E1. lra.
Qed.

Lemma detect1_full nb na angle w :
  refraction angle nb na <> None -> detect1 nb na (PI / 2) angle w = w.
Proof.
  intros H. unfold detect1. destruct (refraction angle nb na) as [t|] eqn:E; [|congruence].
  replace (Rltb (PI / 2) t) with false; [reflexivity|]. symmetry. apply Rltb_false.
  unfold refraction in E. destruct (Rltb _ _); [discriminate|]. inversion E. apply asin_bound.
Qed.

Lemma refraction_same_some n t : n <> 0 -> refraction t n n <> None.
Proof.
  intros Hn. unfold refraction. replace (n / n) with 1 by (now field). rewrite Rmult_1_l.
  replace (Rltb 1 (Rabs (sin t))) with false; [discriminate|].
  symmetry. apply Rltb_false. apply Rabs_le. pose proof (SIN_bound t). lra.
Qed.

Lemma detect1_same n angle w : n <> 0 -> detect1 n n (PI / 2) angle w = w.
Proof. intros H. apply detect1_full, refraction_same_some, H. Qed.

(** The refraction out exists whenever the ray is below the critical angle. *)
Lemma refraction_out ns nm th :
  0 < ns -> 0 < nm -> 0 <= th <= PI / 2 -> ns * sin th <= nm -> refraction th ns nm <> None.
Proof.
  intros Hs Hm Ht H. unfold refraction.
  replace (Rltb 1 (Rabs (ns / nm * sin th))) with false; [discriminate|].
  symmetry. apply Rltb_false. pose proof PI_RGT_0.
  assert (0 <= sin th) by (apply sin_ge_0; lra).
  rewrite Rabs_pos_eq.
  - replace (ns / nm * sin th) with (ns * sin th / nm) by (field; lra).
    apply (Rmult_le_reg_r nm); [lra|]. unfold Rdiv. rewrite Rmult_assoc, Rinv_l; lra.
  - apply Rmult_le_pos; [|assumption]. apply Rlt_le, Rdiv_lt_0_compat; lra.
Qed.

(* ------------------------------------------------------------------ *)
(** * Angles *)

Lemma film_angle_range c : 0 <= film_angle c <= PI / 2.
Proof.
  unfold film_angle. split; [apply acos_bound|].
  pose proof (Rabs_pos c) as H.
  destruct (Req_dec (Rabs c) 0) as [E|E].
  - rewrite E, acos_0. lra.
  - destruct (Rle_lt_dec (Rabs c) 1) as [H1|H1].
    + pose proof (acos_decreasing 0 (Rabs c) ltac:(lra) ltac:(lra) H1) as Hd.
      rewrite acos_0 in Hd. lra.
    + unfold acos. destruct (Rle_dec _ _); [lra|]. destruct (Rle_dec _ _); [|lra].
      pose proof PI_RGT_0; lra.
Qed.

Lemma film_angle_sin c : -1 <= c <= 1 -> sin (film_angle c) = sqrt (1 - c ^ 2).
Proof.
  intros H. unfold film_angle. rewrite sin_acos.
  - f_equal. unfold Rsqr. rewrite <- Rabs_mult, Rabs_pos_eq by nra. ring.
  - pose proof (Rabs_pos c). split; [lra|]. apply Rabs_le; lra.
Qed.

Lemma acos_nonneg x : 0 <= acos x.
Proof. apply acos_bound. Qed.
