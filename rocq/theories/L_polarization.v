(** Coherent and incoherent reflectance (C59, C60). *)
From Coq Require Import Lra Lia Psatz.
From Verif Require Import L_num L_slots.
From Verif Require Export Spec_polarization.
Open Scope R_scope.

Lemma intensity_parts z : intensity z = fst z ^ 2 + snd z ^ 2.
Proof. destruct z as [a b]. unfold intensity, Cconj, Cmult. cbn. ring. Qed.

Lemma intensity_nonneg z : 0 <= intensity z.
Proof. rewrite intensity_parts. nra. Qed.

Lemma cmod_sq z : Cmod z ^ 2 = fst z ^ 2 + snd z ^ 2.
Proof. unfold Cmod. apply pow2_sqrt. nra. Qed.

Lemma strength_parts f :
  intensity (fx f) + intensity (fy f) + intensity (fz f) = strength f.
Proof. unfold strength. now rewrite !cmod_sq, !intensity_parts. Qed.

Lemma strength_components f : strength f = Rsum (map (fun c => c f ^ 2) components).
Proof. unfold strength, components. rewrite !cmod_sq. cbn. ring. Qed.

Lemma strength_nonneg f : 0 <= strength f.
Proof. rewrite <- strength_parts. pose proof (intensity_nonneg (fx f)).
  pose proof (intensity_nonneg (fy f)). pose proof (intensity_nonneg (fz f)). lra. Qed.

Lemma csum_parts l : Csum l = (Rsum (map fst l), Rsum (map snd l)).
Proof.
  induction l as [|[a b] l IH]; [reflexivity|]. cbn [Csum fold_right map].
  fold (Csum l). rewrite IH. reflexivity.
Qed.

(** Cauchy-Schwarz, counting the non-zero terms only. *)
Lemma square_of_sum (P : nat -> bool) (g : nat -> R) l :
  Rsum (map (fun i => if P i then g i else 0) l) ^ 2
  <= INR (length (filter P l)) * Rsum (map (fun i => if P i then g i ^ 2 else 0) l).
Proof.
  induction l as [|i l IH]; [cbn; lra|].
  cbn [map filter]. change (Rsum (?a :: ?m)) with (a + Rsum m).
  set (S1 := Rsum (map (fun i => if P i then g i else 0) l)) in *.
  set (Q := Rsum (map (fun i => if P i then g i ^ 2 else 0) l)) in *.
  assert (HQ : 0 <= Q).
  { unfold Q. clear. induction l as [|i l IH]; [cbn; lra|]. cbn [map].
    change (Rsum (?a :: ?m)) with (a + Rsum m). destruct (P i); [pose proof (pow2_ge_0 (g i))|]; lra. }
  destruct (P i); [|now rewrite !Rplus_0_l].
  cbn [length]. rewrite S_INR. set (k := INR (length (filter P l))) in *.
  assert (Hk : 0 <= k) by apply pos_INR. set (a := g i).
  destruct (Req_dec k 0) as [E|E].
  - rewrite E in *. assert (S1 = 0) by nra. subst S1. nra.
  - assert (2 * a * S1 <= k * a ^ 2 + Q); [|nra].
    apply Rmult_le_reg_l with k; [lra|].
    assert (0 <= (k * a - S1) ^ 2) by apply pow2_ge_0. nra.
Qed.

Lemma sum_swap {A B} (f : A -> B -> R) la lb :
  Rsum (map (fun a => Rsum (map (f a) lb)) la) = Rsum (map (fun b => Rsum (map (fun a => f a b) la)) lb).
Proof.
  induction la as [|a la IH].
  - cbn [map]. change (Rsum []) with 0. induction lb as [|b lb IHb]; [reflexivity|]. cbn [map].
    change (Rsum (?x :: ?m)) with (x + Rsum m). rewrite <- IHb. ring.
  - cbn [map]. change (Rsum (?x :: ?m)) with (x + Rsum m). rewrite IH. clear IH.
    induction lb as [|b lb IHb]; [cbn; ring|]. cbn [map].
    change (Rsum (?x :: ?m)) with (x + Rsum m) in *. rewrite <- IHb. ring.
Qed.

Lemma sum_ext {A} (f g : A -> R) l : (forall a, In a l -> f a = g a) -> Rsum (map f l) = Rsum (map g l).
Proof. intros H. f_equal. now apply map_ext_in. Qed.

Lemma sum_scale {A} (k : R) (f : A -> R) l : Rsum (map (fun a => k * f a) l) = k * Rsum (map f l).
Proof.
  induction l as [|a l IH]; [cbn; ring|]. cbn [map]. change (Rsum (?x :: ?m)) with (x + Rsum m).
  rewrite IH. ring.
Qed.

Lemma sum_le {A} (f g : A -> R) l : (forall a, In a l -> f a <= g a) -> Rsum (map f l) <= Rsum (map g l).
Proof.
  intros H. induction l as [|a l IH]; [cbn; lra|]. cbn [map]. change (Rsum (?x :: ?m)) with (x + Rsum m).
  pose proof (H a (or_introl eq_refl)). assert (Rsum (map f l) <= Rsum (map g l)); [|lra].
  apply IH. intros b Hb. apply H. now right.
Qed.

(** The selected field of trajectory [i]. *)
Lemma selected n nev F I r i (w := fun i => sqrt (r i * INR n)) :
  field_run n nev F I r -> (i < n)%nat ->
  fselect (map (fscale (w i)) (tl (F i))) (I i)
  = if Nat.eqb (I i) 0 then fzero else fscale (w i) (out_field F I i).
Proof.
  intros (_ & H) Hi. destruct (H i Hi) as (L & HI & _).
  unfold fselect, out_field. destruct (I i) as [|k]; [reflexivity|]. cbn [Nat.eqb].
  destruct (F i) as [|f0 l]; [discriminate|]. cbn [tl nth]. cbn in L.
  rewrite (nth_indep _ fzero (fscale (w i) fzero)) by (rewrite map_length; lia).
  now rewrite map_nth.
Qed.

Lemma map2_seq {A B C} (f : A -> B -> C) (g : nat -> A) (h : nat -> B) l :
  map2 f (map g l) (map h l) = map (fun i => f (g i) (h i)) l.
Proof. apply L_slots.map2_maps. Qed.

Lemma existsb_false_map {A} (f : A -> bool) l : (forall a, In a l -> f a = false) -> existsb (fun b => b) (map f l) = false.
Proof.
  intros H. induction l as [|a l IH]; [reflexivity|]. cbn. rewrite H by now left. apply IH.
  intros b Hb. apply H. now right.
Qed.

Lemma phase_fields_value n nev F I r (w := fun i => sqrt (r i * INR n)) :
  field_run n nev F I r ->
  let E := fun i => if Nat.eqb (I i) 0 then fzero else fscale (w i) (out_field F I i) in
  let tx := Csum (map (fun i => fx (E i)) (seq 0 n)) in
  let ty := Csum (map (fun i => fy (E i)) (seq 0 n)) in
  let tz := Csum (map (fun i => fz (E i)) (seq 0 n)) in
  phase_fields n F I r = Ok (tx, ty, tz, strength (tx, ty, tz) / INR n,
     Rsum (map (fun i => strength (E i)) (seq 0 n)) / INR n).
Proof.
  intros Hr E tx ty tz. unfold phase_fields, calc_refl_phase_fields.
  rewrite map_length, seq_length, !map_map, !map2_seq.
  rewrite existsb_false_map.
  - rewrite ?map2_seq, !map_map.
    assert (HE : forall i, In i (seq 0 n) -> fselect (map (fscale (sqrt (r i * INR n))) (tl (F i))) (I i) = E i).
    { intros i Hi. apply in_seq in Hi. apply (selected n nev F I r i Hr). lia. }
    set (S := fun i => fselect (map (fscale (sqrt (r i * INR n))) (tl (F i))) (I i)).
    assert (M : forall {T} (f : field -> T), map (fun i => f (S i)) (seq 0 n) = map (fun i => f (E i)) (seq 0 n)).
    { intros T f. apply map_ext_in. intros i Hi. unfold S. now rewrite HE. }
    pose proof (M _ fx) as Mx. pose proof (M _ fy) as My. pose proof (M _ fz) as Mz.
    pose proof (M _ (fun f => intensity (fx f) + intensity (fy f) + intensity (fz f))) as Ms.
    unfold S in Mx, My, Mz, Ms. cbv beta in Mx, My, Mz, Ms. cbv zeta.
    rewrite Mx, My, Mz, Ms. fold tx ty tz. rewrite <- strength_parts.
    rewrite (map_ext (fun i => strength (E i)) _ (fun i => eq_sym (strength_parts (E i)))). reflexivity.
  - intros i Hi. apply in_seq in Hi. destruct Hr as (_ & Hr). destruct (Hr i ltac:(lia)) as (L & HI & _).
    apply Nat.ltb_ge. rewrite map_length. destruct (F i); cbn in *; lia.
Qed.

Lemma component_zero c : In c components -> c fzero = 0.
Proof. intros [<-|[<-|[<-|[<-|[<-|[<-|[]]]]]]]; reflexivity. Qed.
Lemma component_scale c w f : In c components -> c (fscale w f) = w * c f.
Proof. intros [<-|[<-|[<-|[<-|[<-|[<-|[]]]]]]]; cbn; ring. Qed.
Lemma component_sum c (E : nat -> field) l : In c components ->
  c (Csum (map (fun i => fx (E i)) l), Csum (map (fun i => fy (E i)) l), Csum (map (fun i => fz (E i)) l))
  = Rsum (map (fun i => c (E i)) l).
Proof. intros [<-|[<-|[<-|[<-|[<-|[<-|[]]]]]]]; unfold fx, fy, fz; cbn [fst snd]; rewrite csum_parts; cbn [fst snd]; now rewrite map_map. Qed.

Lemma strength_scale w f : strength (fscale w f) = w ^ 2 * strength f.
Proof.
  unfold strength. rewrite !cmod_sq. unfold fscale, fx, fy, fz. cbn [fst snd].
  destruct f as [[[a b] [c d]] [e g]]. cbn. ring.
Qed.
Lemma strength_zero : strength fzero = 0.
Proof. unfold strength. rewrite !cmod_sq. cbn. ring. Qed.

Lemma weight_sq n x : 0 <= x -> sqrt (x * INR n) ^ 2 = x * INR n.
Proof. intros H. apply pow2_sqrt. apply Rmult_le_pos; [exact H|apply pos_INR]. Qed.

Lemma phase_fields_spec n nev F I r :
  field_run n nev F I r ->
  exists tx ty tz coh inc, phase_fields n F I r = Ok (tx, ty, tz, coh, inc)
    /\ (forall c, In c components ->
          c (tx, ty, tz) = over_reflected n I (fun i => sqrt (INR n * r i) * c (out_field F I i)))
    /\ INR n * coh = strength (tx, ty, tz)
    /\ inc = over_reflected n I (fun i => r i * strength (out_field F I i))
    /\ 0 <= coh <= INR (reflected n I) * inc.
Proof.
  intros Hr. pose proof (phase_fields_value n nev F I r Hr) as V. cbv zeta in V.
  set (w := fun i => sqrt (r i * INR n)) in *.
  set (E := fun i => if Nat.eqb (I i) 0 then fzero else fscale (w i) (out_field F I i)) in *.
  match type of V with _ = Ok (?a, ?b, ?c, ?d, ?e) => exists a, b, c, d, e end.
  assert (Hn : 0 < INR n) by (apply lt_0_INR, (proj1 Hr)).
  split; [exact V|].
  assert (HC : forall c, In c components ->
    c (Csum (map (fun i => fx (E i)) (seq 0 n)), Csum (map (fun i => fy (E i)) (seq 0 n)), Csum (map (fun i => fz (E i)) (seq 0 n)))
    = over_reflected n I (fun i => sqrt (INR n * r i) * c (out_field F I i))).
  { intros c Hc. rewrite component_sum by exact Hc. unfold over_reflected. rewrite <- (Rsum_total (map (fun i => if Nat.eqb (I i) 0 then 0 else _) (seq 0 n))).
    apply sum_ext. intros i _. unfold E, w. rewrite (Rmult_comm (r i)).
    destruct (Nat.eqb (I i) 0); [now apply component_zero|now apply component_scale]. }
  split; [exact HC|].
  split; [field; lra|].
  assert (HI : Rsum (map (fun i => strength (E i)) (seq 0 n)) / INR n
    = over_reflected n I (fun i => r i * strength (out_field F I i))).
  { unfold over_reflected. rewrite <- (Rsum_total (map (fun i => if Nat.eqb (I i) 0 then 0 else _) (seq 0 n))). 
    transitivity (/ INR n * Rsum (map (fun i => strength (E i)) (seq 0 n))); [field; lra|].
    rewrite <- (sum_scale (/ INR n) (fun i => strength (E i)) (seq 0 n)). apply sum_ext.
    intros i Hi. apply in_seq in Hi. unfold E. destruct (Nat.eqb (I i) 0); [rewrite strength_zero; ring|].
    rewrite strength_scale. unfold w. destruct (proj2 Hr i ltac:(lia)) as (_ & _ & H0).
    rewrite weight_sq by exact H0. field. lra. }
  split; [exact HI|].
  split; [apply Rmult_le_pos; [apply strength_nonneg|left; now apply Rinv_0_lt_compat]|].
  unfold Rdiv. rewrite <- Rmult_assoc. apply Rmult_le_compat_r; [left; now apply Rinv_0_lt_compat|].
  rewrite strength_components.
  apply Rle_trans with (Rsum (map (fun c => INR (reflected n I)
     * Rsum (map (fun i => if negb (Nat.eqb (I i) 0) then c (E i) ^ 2 else 0) (seq 0 n))) components)).
  - apply sum_le. intros c Hc. rewrite component_sum by exact Hc.
    replace (Rsum (map (fun i => c (E i)) (seq 0 n)))
      with (Rsum (map (fun i => if negb (Nat.eqb (I i) 0) then c (E i) else 0) (seq 0 n))).
    + apply square_of_sum.
    + apply sum_ext. intros i _. unfold E. destruct (Nat.eqb (I i) 0); cbn [negb]; [symmetry; now apply component_zero|reflexivity].
  - rewrite sum_scale. apply Req_le. f_equal. rewrite sum_swap. apply sum_ext. intros i _.
    rewrite strength_components. destruct (Nat.eqb (I i) 0) eqn:E0; cbn [negb]; [|reflexivity].
    apply sum_ext. intros c Hc. unfold E. rewrite E0. rewrite component_zero by exact Hc. ring.
Qed.

Lemma phase_fields_error n F I r :
  phase_fields n F I r = Err IndexError <-> exists i, (i < n)%nat /\ (length (tl (F i)) < I i)%nat.
Proof.
  unfold phase_fields, calc_refl_phase_fields.
  rewrite map_length, seq_length, !map_map, !map2_seq.
  match goal with |- context [existsb ?f ?l] => destruct (existsb f l) eqn:E end.
  - split; [intros _|reflexivity]. apply existsb_exists in E as (b & Hb & Hb').
    apply in_map_iff in Hb as (i & Hi & Hs). apply in_seq in Hs. exists i. split; [lia|].
    subst b. apply Nat.ltb_lt in Hb'. rewrite map_length in Hb'. exact Hb'.
  - split; [discriminate|]. intros (i & Hi & Hl). exfalso.
    assert (T : existsb (fun b => b) (map (fun i => Nat.ltb (length (map (fscale (sqrt (r i * INR n))) (tl (F i)))) (I i)) (seq 0 n)) = true).
    { apply existsb_exists. exists true. split; [|reflexivity]. apply in_map_iff. exists i. split.
      - apply Nat.ltb_lt. now rewrite map_length.
      - apply in_seq. lia. }
    congruence.
Qed.

(** ** Co- and cross-polarised intensities *)
Lemma co_cross_sum n nev F I r det :
  field_run n nev F I r ->
  exists tx ty tz co cr perp coh inc,
    phase_fields n F I r = Ok (tx, ty, tz, coh, inc)
    /\ co_cross n F I r det = Ok (co, cr, perp, coh, inc)
    /\ 0 <= co /\ 0 <= cr /\ 0 <= perp
    /\ cr = Cmod ty ^ 2
    /\ co = Cmod (Cplus (Cmult (RtoC (cos det)) tx) (Cmult (RtoC (sin det)) tz)) ^ 2
    /\ co + cr + perp = strength (tx, ty, tz)
    /\ co + cr + perp = INR n * coh.
Proof.
  intros Hr. destruct (phase_fields_spec n nev F I r Hr) as (tx & ty & tz & coh & inc & H & _ & Hc & _).
  unfold co_cross, calc_refl_co_cross_fields. change (calc_refl_phase_fields _ _ _) with (phase_fields n F I r).
  rewrite H. cbn [bind].
  do 8 eexists. split; [reflexivity|]. split; [reflexivity|].
  repeat (split; [apply intensity_nonneg|]). rewrite Hc.
  assert (S : intensity (Cplus (Cmult tx (RtoC (cos det))) (Cmult tz (RtoC (sin det)))) + intensity ty
    + intensity (Cplus (Cmult (Copp tx) (RtoC (sin det))) (Cmult tz (RtoC (cos det)))) = strength (tx, ty, tz)).
  { unfold strength. rewrite !cmod_sq, !intensity_parts. unfold fx, fy, fz. cbn [fst snd].
    pose proof (sin2_cos2 det) as SC. unfold Rsqr in SC.
    destruct tx as [a b], ty as [c d], tz as [e f]. cbn [fst snd Cplus Cmult Copp RtoC].
    transitivity ((a ^ 2 + b ^ 2 + e ^ 2 + f ^ 2) * (sin det * sin det + cos det * cos det) + (c ^ 2 + d ^ 2));
      [ring|]. rewrite SC. ring. }
  split; [now rewrite intensity_parts, cmod_sq|].
  split; [|split; exact S].
  rewrite intensity_parts, cmod_sq. destruct tx as [a b], tz as [e f]. cbn. ring.
Qed.

(** ** A common phase *)
Lemma csum_mult u l : Csum (map (Cmult u) l) = Cmult u (Csum l).
Proof.
  induction l as [|z l IH]; [cbn; now rewrite Cmult_0_r|]. cbn [map Csum fold_right].
  fold (Csum (map (Cmult u) l)) (Csum l). rewrite IH. ring.
Qed.

Lemma strength_turn u f : strength (fturn u f) = Cmod u ^ 2 * strength f.
Proof.
  unfold strength, fturn, fx, fy, fz. cbn [fst snd]. rewrite !Cmod_mult. ring.
Qed.

Lemma common_phase n nev F I r u :
  field_run n nev F I r -> Cmod u = 1 ->
  exists tx ty tz coh inc,
    phase_fields n F I r = Ok (tx, ty, tz, coh, inc)
    /\ phase_fields n (fun i => map (fturn u) (F i)) I r = Ok (Cmult u tx, Cmult u ty, Cmult u tz, coh, inc).
Proof.
  intros Hr Hu.
  assert (Hr' : field_run n nev (fun i => map (fturn u) (F i)) I r).
  { destruct Hr as (H0 & H). split; [exact H0|]. intros i Hi. rewrite map_length. now apply H. }
  pose proof (phase_fields_value n nev F I r Hr) as V.
  pose proof (phase_fields_value n nev (fun i => map (fturn u) (F i)) I r Hr') as V'. cbv zeta in V, V'.
  set (w := fun i => sqrt (r i * INR n)) in *.
  set (E := fun i => if Nat.eqb (I i) 0 then fzero else fscale (w i) (out_field F I i)) in *.
  set (E' := fun i => if Nat.eqb (I i) 0 then fzero else fscale (w i) (out_field (fun i => map (fturn u) (F i)) I i)) in *.
  assert (T0 : fturn u fzero = fzero).
  { unfold fturn, fzero, fx, fy, fz. cbn [fst snd]. now rewrite Cmult_0_r. }
  assert (HE : forall i, In i (seq 0 n) -> E' i = fturn u (E i)).
  { intros i Hi. unfold E', E. destruct (Nat.eqb (I i) 0); [now rewrite T0|].
    unfold out_field. rewrite <- T0 at 1. rewrite map_nth.
    unfold fscale, fturn, fx, fy, fz. cbn [fst snd]. f_equal; [f_equal|]; ring. }
  assert (M : forall (g : field -> C), (forall f, g (fturn u f) = Cmult u (g f)) ->
     Csum (map (fun i => g (E' i)) (seq 0 n)) = Cmult u (Csum (map (fun i => g (E i)) (seq 0 n)))).
  { intros g Hg. rewrite <- csum_mult, map_map. f_equal. apply map_ext_in. intros i Hi. now rewrite HE. }
  rewrite (M fx), (M fy), (M fz) in V' by reflexivity.
  do 5 eexists. split; [exact V|]. rewrite V'. f_equal. f_equal; [f_equal|].
  - f_equal.
    change (strength (fturn u (Csum (map (fun i => fx (E i)) (seq 0 n)), Csum (map (fun i => fy (E i)) (seq 0 n)), Csum (map (fun i => fz (E i)) (seq 0 n))))
      = strength (Csum (map (fun i => fx (E i)) (seq 0 n)), Csum (map (fun i => fy (E i)) (seq 0 n)), Csum (map (fun i => fz (E i)) (seq 0 n)))).
    rewrite strength_turn, Hu. ring.
  - f_equal. apply sum_ext. intros i Hi. rewrite HE by exact Hi. rewrite strength_turn, Hu. ring.
Qed.

(** ** Times *)
Lemma traj_time_spec c dwell n_sample steps idx i s k :
  0 < c -> 0 < n_sample -> length idx = length steps ->
  nth_error steps i = Some s -> nth_error idx i = Some k -> Forall (fun x => 0 < x) s ->
  exists time travel,
    nth_error (fst (calc_traj_time c dwell n_sample steps idx)) i = Some time
    /\ nth_error (snd (calc_traj_time c dwell n_sample steps idx)) i = Some travel
    /\ travel = n_sample * total (firstn k s) / c
    /\ (k = 0%nat -> time = 0) /\ ((0 < k)%nat -> s <> [] -> time = travel + dwell).
Proof.
  intros Hc Hn Hl Hs Hk Hp.
  assert (N2 : forall {A B D} (f : A -> B -> D) la lb i a b, nth_error la i = Some a -> nth_error lb i = Some b ->
     nth_error (map2 f la lb) i = Some (f a b)).
  { intros A B D f. induction la as [|x la IH]; intros [|y lb] [|j] a b H1 H2; try discriminate; cbn in *.
    - congruence.
    - now apply IH. }
  unfold calc_traj_time. cbv zeta. cbn [fst snd].
  set (path := map2 _ steps idx).
  assert (Hpath : nth_error path i = Some (total (firstn k s))).
  { unfold path. rewrite <- Rsum_total.
    exact (N2 _ _ _ (fun s k => Rsum (firstn k s)) steps idx i s k Hs Hk). }
  assert (Ht : nth_error (map (fun p => p / (c / n_sample)) path) i = Some (total (firstn k s) / (c / n_sample))).
  { now rewrite nth_error_map, Hpath. }
  do 2 eexists. split; [exact (N2 _ _ _ (fun p t => if Reqb p 0 then 0 else t + dwell) _ _ i _ _ Hpath Ht)|].
  split; [exact Ht|].
  split; [field; lra|]. split; intros H.
  - subst k. cbn. rewrite (proj2 (Reqb_true 0 0)) by reflexivity. reflexivity.
  - intros Hne. assert (0 < total (firstn k s)).
    { destruct k as [|k]; [lia|]. destruct s as [|x s]; [contradiction|]. cbn. inversion Hp; subst.
      assert (0 <= total (firstn k s)); [|lra]. apply total_nonneg.
      apply Forall_forall. intros y Hy. rewrite Forall_forall in H3.
      left. apply H3. rewrite <- (firstn_skipn k s). apply in_or_app. now left. }
    rewrite (proj2 (Reqb_false _ 0)) by lra. reflexivity.
Qed.
