(** Means over independent random phases. *)
From Coq Require Import Lra Lia Psatz Reals List.
From Verif Require Import Num Spec Spec_mean Spec_polarization M_polarization M_fields L_num L_polarization L_fields.
From Coquelicot Require Import Coquelicot.
Open Scope R_scope.

Lemma is_mean_ext n : forall F G m, (forall t, F t = G t) -> is_mean n F m -> is_mean n G m.
Proof.
  destruct n as [|n]; intros F G m E H; cbn in *.
  - intros t. now rewrite <- E.
  - destruct H as (K & HK & Hm). exists K. split; [|exact Hm]. intros t.
    apply (is_RInt_ext (fun x => F (upd t n x))); [|apply HK]. intros x _. apply E.
Qed.
Lemma is_mean_plus n : forall F G a b, is_mean n F a -> is_mean n G b -> is_mean n (fun t => F t + G t) (a + b).
Proof.
  induction n as [|n IH]; intros F G a b HF HG; cbn in *.
  - intros t. now rewrite HF, HG.
  - destruct HF as (K & HK & Ha), HG as (L & HL & Hb). exists (fun t => K t + L t). split; [|now apply IH].
    intros t. exact (is_RInt_plus (fun x => F (upd t n x)) (fun x => G (upd t n x)) 0 1 _ _ (HK t) (HL t)).
Qed.
Lemma is_mean_scal n c : forall F a, is_mean n F a -> is_mean n (fun t => c * F t) (c * a).
Proof.
  induction n as [|n IH]; intros F a HF; cbn in *.
  - intros t. now rewrite HF.
  - destruct HF as (K & HK & Ha). exists (fun t => c * K t). split; [|now apply IH].
    intros t. exact (is_RInt_scal (fun x => F (upd t n x)) 0 1 c _ (HK t)).
Qed.
Lemma is_mean_const n c : is_mean n (fun _ => c) c.
Proof.
  induction n as [|n IH]; cbn; [reflexivity|]. exists (fun _ => c). split; [|exact IH].
  intros t. pose proof (is_RInt_const 0 1 c) as H. assert (E : (1 - 0) * c = c) by ring. exact (eq_ind _ (fun v => is_RInt (fun _ => c) 0 1 v) H c E).
Qed.
(** The mean is unique. *)
Lemma is_mean_unique n : forall F G a b, (forall t, F t = G t) -> is_mean n F a -> is_mean n G b -> a = b.
Proof.
  induction n as [|n IH]; intros F G a b E HF HG; cbn in *.
  - now rewrite <- (HF (fun _ => 0)), <- (HG (fun _ => 0)).
  - destruct HF as (K & HK & Ha), HG as (L & HL & Hb). apply (IH K L a b); [|exact Ha|exact Hb].
    intros t. rewrite <- (is_RInt_unique _ _ _ _ (HK t)), <- (is_RInt_unique _ _ _ _ (HL t)).
    apply RInt_ext. intros x _. apply E.
Qed.

Lemma wave_mean p q c : is_RInt (fun x => c + p * cos (2 * PI * x) + q * sin (2 * PI * x)) 0 1 c.
Proof.
  pose proof PI_RGT_0 as HP.
  set (F := fun x : R => c * x + p * (sin (2 * PI * x) / (2 * PI)) - q * (cos (2 * PI * x) / (2 * PI))).
  assert (E : minus (F 1) (F 0) = c).
  { unfold minus, plus, opp, F; cbn. rewrite !Rmult_1_r, !Rmult_0_r, sin_0, cos_0, sin_2PI, cos_2PI. field. lra. }
  enough (X : is_RInt (fun x => c + p * cos (2 * PI * x) + q * sin (2 * PI * x)) 0 1 (minus (F 1) (F 0))) by (exact (eq_ind _ (fun v => is_RInt (fun x => c + p * cos (2 * PI * x) + q * sin (2 * PI * x)) 0 1 v) X c E)).
  apply (is_RInt_derive F).
    - intros x _. unfold F. auto_derive; [lra|]. field. lra.
    - intros x _. apply (ex_derive_continuous (fun x => c + p * cos (2 * PI * x) + q * sin (2 * PI * x))). auto_derive. exact I.
Qed.

Definition turned (t : R) : C := expi (2 * PI * t).

Lemma turned_mean (a z : C) : is_RInt (fun x => Cmod (Cplus a (Cmult (turned x) z)) ^ 2) 0 1 (Cmod a ^ 2 + Cmod z ^ 2).
Proof.
  apply (is_RInt_ext (fun x => (Cmod a ^ 2 + Cmod z ^ 2)
     + (2 * (fst a * fst z + snd a * snd z)) * cos (2 * PI * x) + (2 * (snd a * fst z - fst a * snd z)) * sin (2 * PI * x))).
  - intros x _. rewrite !cmod_sq. unfold turned, expi. destruct a as [a1 a2], z as [z1 z2]. cbn [fst snd Cplus Cmult].
    pose proof (sin2_cos2 (2 * PI * x)) as SC. unfold Rsqr in SC. set (s := sin (2 * PI * x)) in *. set (k := cos (2 * PI * x)) in *.
    match goal with |- @eq _ ?l ?r => change (@eq R l r) end. transitivity (a1 ^ 2 + a2 ^ 2 + (z1 ^ 2 + z2 ^ 2) * (s * s + k * k) + 2 * (a1 * z1 + a2 * z2) * k + 2 * (a2 * z1 - a1 * z2) * s);
      [rewrite SC; ring|ring].
  - apply wave_mean.
Qed.

Lemma csum_app l m : Csum (l ++ m) = Cplus (Csum l) (Csum m).
Proof. induction l as [|a l IH]; cbn [app Csum fold_right]; [now rewrite Cplus_0_l|]. fold (Csum (l ++ m)). rewrite IH. fold (Csum l). ring. Qed.

(** Independent phases: the mean intensity of a sum is the sum of intensities. *)
Lemma intensity_mean (z : nat -> C) n : forall a : C,
  is_mean n (fun t => Cmod (Cplus a (Csum (map (fun i => Cmult (turned (t i)) (z i)) (seq 0 n)))) ^ 2)
    (Cmod a ^ 2 + total (map (fun i => Cmod (z i) ^ 2) (seq 0 n))).
Proof.
  induction n as [|n IH]; intros a.
  - cbn [is_mean seq map Csum fold_right total]. intros t. rewrite Cplus_0_r. ring.
  - cbn [is_mean]. exists (fun t => Cmod (Cplus a (Csum (map (fun i => Cmult (turned (t i)) (z i)) (seq 0 n)))) ^ 2 + Cmod (z n) ^ 2).
    split.
    + intros t. refine (is_RInt_ext _ _ _ _ _ _ (turned_mean (Cplus a (Csum (map (fun i => Cmult (turned (t i)) (z i)) (seq 0 n)))) (z n))).
      intros x _. f_equal. f_equal. rewrite seq_S, map_app, csum_app. cbn [map Csum fold_right Nat.add].
      rewrite Cplus_0_r, Cplus_assoc. f_equal; [f_equal; f_equal|].
      * apply map_ext_in. intros i Hi. apply in_seq in Hi. unfold upd. destruct (Nat.eqb_spec i n); [lia|reflexivity].
      * unfold upd. now rewrite Nat.eqb_refl.
    + rewrite seq_S, map_app, total_app. cbn [map total Nat.add]. rewrite Rplus_0_r, <- Rplus_assoc.
      apply is_mean_plus; [apply IH|apply is_mean_const].
Qed.

Lemma csum_plus (f g : nat -> C) l : Csum (map (fun i => Cplus (f i) (g i)) l) = Cplus (Csum (map f l)) (Csum (map g l)).
Proof. induction l as [|a l IH]; cbn [map Csum fold_right]; [now rewrite Cplus_0_l|]. fold (Csum (map (fun i => Cplus (f i) (g i)) l)). rewrite IH. fold (Csum (map f l)). fold (Csum (map g l)). ring. Qed.
Lemma csum_scale (u : C) (f : nat -> C) l : Csum (map (fun i => Cmult (f i) u) l) = Cmult (Csum (map f l)) u.
Proof. induction l as [|a l IH]; cbn [map Csum fold_right]; [now rewrite Cmult_0_l|]. fold (Csum (map (fun i => Cmult (f i) u) l)). rewrite IH. fold (Csum (map f l)). ring. Qed.
Lemma csum_ext (f g : nat -> C) l : (forall i, In i l -> f i = g i) -> Csum (map f l) = Csum (map g l).
Proof. intros H. f_equal. now apply map_ext_in. Qed.

Lemma sum_mean (z : nat -> C) n : is_mean n (fun t => Cmod (Csum (map (fun i => Cmult (turned (t i)) (z i)) (seq 0 n))) ^ 2)
  (total (map (fun i => Cmod (z i) ^ 2) (seq 0 n))).
Proof.
  pose proof (intensity_mean z n (RtoC 0)) as H. rewrite Cmod_0 in H. replace (0 ^ 2 + total (map (fun i => Cmod (z i) ^ 2) (seq 0 n)))
    with (total (map (fun i => Cmod (z i) ^ 2) (seq 0 n))) in H by ring.
  revert H. apply is_mean_ext. intros t. now rewrite Cplus_0_l.
Qed.

Lemma phases_mean n nev F I r det (turned_fields := fun (t : nat -> R) i => map (fturn (turned (t i))) (F i)) :
  field_run n nev F I r ->
  exists (co cr perp coh : (nat -> R) -> R) inc,
    (forall t, co_cross n (turned_fields t) I r det = Ok (co t, cr t, perp t, coh t, inc))
    /\ inc = over_reflected n I (fun i => r i * strength (out_field F I i))
    /\ is_mean n coh inc
    /\ is_mean n co (INR n * over_reflected n I (fun i => r i *
          Cmod (Cplus (Cmult (RtoC (cos det)) (fx (out_field F I i))) (Cmult (RtoC (sin det)) (fz (out_field F I i)))) ^ 2))
    /\ is_mean n cr (INR n * over_reflected n I (fun i => r i * Cmod (fy (out_field F I i)) ^ 2))
    /\ is_mean n perp (INR n * over_reflected n I (fun i => r i *
          Cmod (Cplus (Copp (Cmult (RtoC (sin det)) (fx (out_field F I i)))) (Cmult (RtoC (cos det)) (fz (out_field F I i)))) ^ 2)).
Proof.
  intros Hr. assert (Hn : 0 < INR n) by (apply lt_0_INR, (proj1 Hr)).
  set (w := fun i => sqrt (r i * INR n)).
  set (E := fun i => if Nat.eqb (I i) 0 then fzero else fscale (w i) (out_field F I i)).
  assert (HR : forall t, field_run n nev (turned_fields t) I r).
  { intros t. split; [apply Hr|]. intros i Hi. unfold turned_fields. rewrite map_length. apply (proj2 Hr i Hi). }
  assert (HE : forall t i, (if Nat.eqb (I i) 0 then fzero else fscale (w i) (out_field (turned_fields t) I i)) = fturn (turned (t i)) (E i)).
  { intros t i. unfold E. destruct (Nat.eqb (I i) 0).
    - unfold fturn, fzero, fx, fy, fz. cbn [fst snd]. now rewrite Cmult_0_r.
    - unfold out_field, turned_fields. assert (Z : fturn (turned (t i)) fzero = fzero) by (unfold fturn, fzero, fx, fy, fz; cbn [fst snd]; now rewrite Cmult_0_r).
      rewrite <- Z at 1. rewrite map_nth. unfold fscale, fturn, fx, fy, fz. cbn [fst snd]. f_equal; [f_equal|]; ring. }
  set (S := fun (t : nat -> R) (c : field -> C) => Csum (map (fun i => Cmult (turned (t i)) (c (E i))) (seq 0 n))).
  assert (V : forall t, exists inc, phase_fields n (turned_fields t) I r = Ok (S t fx, S t fy, S t fz, strength (S t fx, S t fy, S t fz) / INR n, inc)
     /\ inc = over_reflected n I (fun i => r i * strength (out_field F I i))).
  { intros t.
    set (E' := fun i => if Nat.eqb (I i) 0 then fzero else fscale (w i) (out_field (turned_fields t) I i)).
    assert (P : phase_fields n (turned_fields t) I r = Ok (Csum (map (fun i => fx (E' i)) (seq 0 n)), Csum (map (fun i => fy (E' i)) (seq 0 n)), Csum (map (fun i => fz (E' i)) (seq 0 n)),
        strength (Csum (map (fun i => fx (E' i)) (seq 0 n)), Csum (map (fun i => fy (E' i)) (seq 0 n)), Csum (map (fun i => fz (E' i)) (seq 0 n))) / INR n,
        Rsum (map (fun i => strength (E' i)) (seq 0 n)) / INR n)) by exact (phase_fields_value n nev (turned_fields t) I r (HR t)).
    assert (M : forall c : field -> C, (forall u f, c (fturn u f) = Cmult u (c f)) ->
       Csum (map (fun i => c (E' i)) (seq 0 n)) = S t c).
    { intros c Hc. unfold S. apply csum_ext. intros i _. unfold E'. now rewrite HE, Hc. }
    rewrite (M fx), (M fy), (M fz) in P by reflexivity.
    destruct (phase_fields_spec n nev (turned_fields t) I r (HR t)) as (a & b & c & coh & inc & P2 & _ & _ & Hi & _).
    exists inc. rewrite P in P2. split; [rewrite P; congruence|]. rewrite Hi. unfold over_reflected. f_equal. apply map_ext. intros i.
    destruct (Nat.eqb (I i) 0); [reflexivity|]. f_equal. unfold out_field, turned_fields.
    assert (Z : fturn (turned (t i)) fzero = fzero) by (unfold fturn, fzero, fx, fy, fz; cbn [fst snd]; now rewrite Cmult_0_r).
    rewrite <- Z at 1. rewrite map_nth, L_polarization.strength_turn. unfold turned. rewrite expi_mod. ring. }
  set (inc := over_reflected n I (fun i => r i * strength (out_field F I i))).
  set (co := fun t => Cmod (S t (fun f => Cplus (Cmult (RtoC (cos det)) (fx f)) (Cmult (RtoC (sin det)) (fz f)))) ^ 2).
  set (perp := fun t => Cmod (S t (fun f => Cplus (Copp (Cmult (RtoC (sin det)) (fx f))) (Cmult (RtoC (cos det)) (fz f)))) ^ 2).
  exists co, (fun t => Cmod (S t fy) ^ 2), perp, (fun t => strength (S t fx, S t fy, S t fz) / INR n), inc.
  split.
  { intros t. unfold co_cross, calc_refl_co_cross_fields. change (calc_refl_phase_fields _ _ _) with (phase_fields n (turned_fields t) I r).
    destruct (V t) as (inc' & -> & Ei). cbn [bind].
    assert (A : forall a b : C, Cplus (Cmult (S t fx) a) (Cmult (S t fz) b) = S t (fun f => Cplus (Cmult a (fx f)) (Cmult b (fz f)))).
    { intros a b. unfold S. rewrite <- !csum_scale, <- csum_plus. apply csum_ext. intros i _. ring. }
    assert (B : Cmult (Copp (S t fx)) (RtoC (sin det)) = Cmult (S t fx) (Copp (RtoC (sin det)))) by ring.
    rewrite B, !A, !intensity_parts, <- !cmod_sq. rewrite Ei. unfold co, perp, inc.
    assert (Eq : S t (fun f => Cplus (Cmult (Copp (RtoC (sin det))) (fx f)) (Cmult (RtoC (cos det)) (fz f)))
       = S t (fun f => Cplus (Copp (Cmult (RtoC (sin det)) (fx f))) (Cmult (RtoC (cos det)) (fz f)))).
    { unfold S. apply csum_ext. intros i _. ring. }
    rewrite Eq. reflexivity. }
  split; [reflexivity|].
  assert (T : forall c : field -> C, c fzero = RtoC 0 -> (forall a f, c (fscale a f) = Cmult (RtoC a) (c f)) ->
    is_mean n (fun t => Cmod (S t c) ^ 2) (INR n * over_reflected n I (fun i => r i * Cmod (c (out_field F I i)) ^ 2))).
  { intros c Hz Hc. pose proof (sum_mean (fun i => c (E i)) n) as H.
    replace (INR n * over_reflected n I (fun i => r i * Cmod (c (out_field F I i)) ^ 2)) with (total (map (fun i => Cmod (c (E i)) ^ 2) (seq 0 n))); [exact H|].
    unfold over_reflected. rewrite <- !Rsum_total, <- sum_scale. apply sum_ext. intros i Hi. apply in_seq in Hi. unfold E.
    destruct (Nat.eqb (I i) 0); [rewrite Hz, Cmod_0; ring|]. rewrite Hc, Cmod_mult, Cmod_R, Rpow_mult_distr, pow2_abs.
    unfold w. rewrite weight_sq by (apply (proj2 Hr i ltac:(lia))). ring. }
  assert (Tx := T fx eq_refl (fun _ _ => eq_refl)). assert (Ty := T fy eq_refl (fun _ _ => eq_refl)). assert (Tz := T fz eq_refl (fun _ _ => eq_refl)).
  split; [|split; [|split]].
  - pose proof (is_mean_scal n (/ INR n) _ _ (is_mean_plus n _ _ _ _ (is_mean_plus n _ _ _ _ Tx Ty) Tz)) as H.
    replace inc with (/ INR n * (INR n * over_reflected n I (fun i => r i * Cmod (fx (out_field F I i)) ^ 2)
       + INR n * over_reflected n I (fun i => r i * Cmod (fy (out_field F I i)) ^ 2)
       + INR n * over_reflected n I (fun i => r i * Cmod (fz (out_field F I i)) ^ 2))).
    + revert H. apply is_mean_ext. intros t. unfold strength, fx, fy, fz. cbn [fst snd]. field. lra.
    + transitivity (over_reflected n I (fun i => r i * Cmod (fx (out_field F I i)) ^ 2)
       + over_reflected n I (fun i => r i * Cmod (fy (out_field F I i)) ^ 2)
       + over_reflected n I (fun i => r i * Cmod (fz (out_field F I i)) ^ 2)); [field; lra|].
      unfold inc, over_reflected. rewrite <- !total_map_plus. f_equal. apply map_ext. intros i. destruct (Nat.eqb (I i) 0); [ring|]. unfold strength. ring.
  - apply (T (fun f => Cplus (Cmult (RtoC (cos det)) (fx f)) (Cmult (RtoC (sin det)) (fz f)))).
    + unfold fzero, fx, fz. cbn [fst snd]. ring.
    + intros a f. unfold fscale, fx, fz. cbn [fst snd]. ring.
  - exact Ty.
  - apply (T (fun f => Cplus (Copp (Cmult (RtoC (sin det)) (fx f))) (Cmult (RtoC (cos det)) (fz f)))).
    + unfold fzero, fx, fz. cbn [fst snd]. ring.
    + intros a f. unfold fscale, fx, fz. cbn [fst snd]. ring.
Qed.
