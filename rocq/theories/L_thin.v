(** Lemmas for C162. *)
From Coq Require Import Lra Lia Psatz Reals List FunctionalExtensionality.
From Verif Require Import Num Spec Spec_scat Spec_mean Spec_estimate Spec_direct Spec_single M_init M_montecarlo M_detector M_simulation M_scat
  L_num L_sampling L_weights L_mean L_periodic L_local2 L_direct L_estimate L_single L_diffuse.
From Verif Require Spec_diffuse Spec_thin.
From Coquelicot Require Import Coquelicot.
Import ListNotations.
Open Scope R_scope.

(** A mean over n + m numbers in two stages. *)
Definition join (n : nat) (t s : nat -> R) : nat -> R := fun k => if Nat.ltb k n then t k else s (k - n)%nat.
Lemma join_self n t : join n t (fun k => t (k + n)%nat) = t.
Proof. apply functional_extensionality. intros k. unfold join. destruct (Nat.ltb_spec k n); [reflexivity|]. f_equal. lia. Qed.
Lemma join_upd n m t s x : join n t (upd s m x) = upd (join n t s) (m + n) x.
Proof.
  apply functional_extensionality. intros k. unfold join, upd. destruct (Nat.ltb_spec k n).
  - destruct (Nat.eqb_spec k (m + n)); [lia|reflexivity].
  - destruct (Nat.eqb_spec (k - n) m), (Nat.eqb_spec k (m + n)); try lia; reflexivity.
Qed.
Lemma mean_join n m : forall F G v, (forall t, is_mean m (fun s => F (join n t s)) (G t)) -> is_mean n G v -> is_mean (m + n) F v.
Proof.
  induction m as [|m IH]; intros F G v H1 H2.
  - refine (is_mean_ext n G F v _ H2). intros t. rewrite <- (join_self n t) at 2. symmetry. apply (H1 t).
  - cbn [Nat.add is_mean].
    assert (Hi : forall t s Gt, is_RInt (fun x => F (join n t (upd s m x))) 0 1 Gt -> is_RInt (fun x => F (upd (join n t s) (m + n) x)) 0 1 Gt).
    { intros t s Gt Q. refine (is_RInt_ext _ _ _ _ _ _ Q). intros x _. now rewrite join_upd. }
    exists (fun t => RInt (fun x => F (upd t (m + n) x)) 0 1). split.
    + intros t. destruct (H1 t) as (Gt & Q & _). pose proof (Hi t _ _ (Q (fun k => t (k + n)%nat))) as Q'. rewrite join_self in Q'.
      rewrite (is_RInt_unique _ _ _ _ Q'). exact Q'.
    + apply (IH _ G v); [|exact H2]. intros t. destruct (H1 t) as (Gt & Q & M). refine (is_mean_ext _ _ _ _ _ M). intros s.
      symmetry. apply is_RInt_unique, Hi, Q.
Qed.

Section Table.
Variables (p : list R) (lo : R).
Hypothesis (Hlo : 0 <= lo <= PI) (Hp : List.Forall (fun x => 0 <= x) p) (Ht : 0 < total (map (Spec_diffuse.angle_weight p lo) (seq 0 (length p)))).
Variables (nev ntraj : nat) (spot pmin pmax mu : R) (P : params) (D : draws).
Hypothesis (Hn : (1 < nev)%nat) (Hnt : (0 < ntraj)%nat) (Hmu : 0 < mu) (Hmua : 0 <= p_muabs P) (Hu : forall n i, 0 <= d_u D n i < 1).
Hypothesis (Hb : p_boundary P = film) (Hr : p_run P = false) (Hg : p_gonio P = None) (Hz : p_zlow P = 0)
  (Hk1 : p_kz0rot P = None) (Hk2 : p_kz0refl P = None)
  (Hth : 0 < p_thickness P) (Hm : 0 < p_nmedium P <= choose_n_tir P)
  (Hf : forall m, p_nfront P = Some m -> 0 < m) (Hbk : forall m, p_nback P = Some m -> 0 < m).
Local Notation nt := (choose_n_tir P).
Local Notation nm := (p_nmedium P).
Local Notation d := (p_thickness P).
Local Notation a := (p_muabs P).
Local Notation ent := (through nm (p_nfront P) nt).
Local Notation om := (mu / (mu + a)).
(** The draws with a fixed first angle. *)
Definition angled (th : nat -> R) : draws :=
  mk_draws (d_l0 D) (d_l1 D) (d_l2 D) (d_l3 D) (fun i n => match n with O => (th i, snd (d_ang D i 0%nat)) | _ => d_ang D i n end) (d_u D) (d_rang D) (d_rstep D).
Definition two_of (t : nat -> R) : nat -> R := fun k => t (3 * (k / 2) + 1 + k mod 2)%nat.
Lemma two_of_even t i : two_of t (2 * i) = t (3 * i + 1)%nat.
Proof. unfold two_of. replace (2 * i)%nat with (i * 2)%nat by lia. rewrite Nat.div_mul, Nat.mod_mul by lia. f_equal. lia. Qed.
Lemma two_of_odd t i : two_of t (2 * i + 1) = t (3 * i + 2)%nat.
Proof.
  unfold two_of. replace (2 * i + 1)%nat with (1 + i * 2)%nat by lia. rewrite Nat.div_add, Nat.mod_add by lia. cbn [Nat.div Nat.modulo Nat.divmod fst snd Nat.sub]. f_equal. lia.
Qed.
Lemma draws_split t : Spec_thin.with_first_scattering p lo t D = with_two_draws (two_of t) (angled (fun i => polar p lo (t (3 * i)%nat))).
Proof.
  unfold Spec_thin.with_first_scattering, with_two_draws, angled. cbn [d_l0 d_l1 d_l2 d_l3 d_ang d_u d_rang d_rstep]. f_equal.
  - apply functional_extensionality. intros i. apply functional_extensionality. intros [|n]; [|reflexivity]. f_equal. unfold polar. destruct (sample_angle_1d p lo 0 (t (3 * i)%nat)); reflexivity.
  - apply functional_extensionality. intros [|[|n]]; apply functional_extensionality; intros i; [now rewrite two_of_even|now rewrite two_of_odd|reflexivity].
Qed.
Definition hback (c x y : R) : R :=
  if (Rltb x d && Rltb (x + c * y) 0)%bool then ent * pf1 nt (p_nfront P) nm (acos (Rabs c)) / INR ntraj * exp (- (a * (x + y))) else 0.
Definition hahead (c x y : R) : R :=
  if (Rltb x d && Rleb d (x + c * y))%bool then ent * pf1 nt (p_nback P) nm (acos (Rabs c)) / INR ntraj * exp (- (a * (x + y))) else 0.
Definition vback (th : R) : R := if Rltb (cos th) 0 then ent * pf1 nt (p_nfront P) nm (acos (Rabs (cos th))) / INR ntraj * om ^ 2 * slab_back (mu + a) d (cos th) else 0.
Definition vahead (th : R) : R := if Rltb 0 (cos th) then ent * pf1 nt (p_nback P) nm (acos (Rabs (cos th))) / INR ntraj * om ^ 2 * slab_ahead (mu + a) d (cos th) else 0.
Lemma block3 (h : R -> R -> R -> R) (v : R -> R) :
  (forall th, is_mean 2 (fun s => h (cos th) (step_of mu (frac_part (s 0%nat))) (step_of mu (frac_part (s 1%nat)))) (v th)) ->
  is_mean 3 (fun s => h (cos (polar p lo (s 0%nat))) (step_of mu (frac_part (s 1%nat))) (step_of mu (frac_part (s 2%nat)))) (Spec_diffuse.average p lo v).
Proof.
  intros H. apply (mean_join 1 2 _ (fun t => v (polar p lo (t 0%nat)))).
  - intros t. refine (is_mean_ext _ _ _ _ _ (H (polar p lo (t 0%nat)))). intros s. reflexivity.
  - cbn [is_mean]. exists (fun _ => Spec_diffuse.average p lo v). split; [|reflexivity]. intros t.
    refine (is_RInt_ext _ _ _ _ _ _ (polar_integral p lo Hlo Hp Ht v)). intros x _. now rewrite upd_same.
Qed.
Lemma numbers3 t i : numbers_of 3 t i 0%nat = t (3 * i)%nat /\ numbers_of 3 t i 1%nat = t (3 * i + 1)%nat /\ numbers_of 3 t i 2%nat = t (3 * i + 2)%nat.
Proof. unfold numbers_of. cbn [Nat.ltb Nat.leb]. repeat split; f_equal; lia. Qed.
Lemma angled_ok th : forall n i, 0 <= d_u (angled th) n i < 1.
Proof. exact Hu. Qed.
Lemma thin_means :
  is_mean (ntraj * 3) (fun t => once_reflected (film_run nev ntraj spot 0 0 pmin pmax mu P (Spec_thin.with_first_scattering p lo t D))) (INR ntraj * Spec_diffuse.average p lo vback)
  /\ is_mean (ntraj * 3) (fun t => once_transmitted (film_run nev ntraj spot 0 0 pmin pmax mu P (Spec_thin.with_first_scattering p lo t D))) (INR ntraj * Spec_diffuse.average p lo vahead).
Proof.
  assert (EN : forall v, INR ntraj * v = total (map (fun _ => v) (seq 0 ntraj))) by (intros v; rewrite total_map_const, seq_length; ring).
  assert (Run : forall t, once_reflected (film_run nev ntraj spot 0 0 pmin pmax mu P (Spec_thin.with_first_scattering p lo t D))
      = sums_i 3 (fun i s => hback (cos (polar p lo (s 0%nat))) (step_of mu (frac_part (s 1%nat))) (step_of mu (frac_part (s 2%nat)))) ntraj t
    /\ once_transmitted (film_run nev ntraj spot 0 0 pmin pmax mu P (Spec_thin.with_first_scattering p lo t D))
      = sums_i 3 (fun i s => hahead (cos (polar p lo (s 0%nat))) (step_of mu (frac_part (s 1%nat))) (step_of mu (frac_part (s 2%nat)))) ntraj t).
  { intros t. rewrite draws_split. set (E := angled _).
    assert (HE : forall n i, 0 <= d_u E n i < 1) by exact Hu.
    destruct (once_run nev ntraj spot pmin pmax mu P (with_two_draws (two_of t) E) Hn Hmu Hmua (two_draws_ok E (two_of t) HE) Hb Hr Hg Hk1 Hk2 Hm Hf Hbk) as [-> ->].
    split; unfold sums_i; f_equal; apply map_ext_in; intros i Hi; apply in_seq in Hi; destruct (numbers3 t i) as (-> & -> & ->).
    - rewrite once_r_h by (assumption || lia). rewrite two_of_even, two_of_odd. reflexivity.
    - rewrite once_t_h by (assumption || lia). rewrite two_of_even, two_of_odd. reflexivity. }
  split.
  - apply (is_mean_ext _ (sums_i 3 (fun i s => hback (cos (polar p lo (s 0%nat))) (step_of mu (frac_part (s 1%nat))) (step_of mu (frac_part (s 2%nat)))) ntraj)); [intros t; symmetry; apply Run|].
    rewrite EN. apply (sums_i_mean 3 _ (fun _ => Spec_diffuse.average p lo vback)). intros i _. apply block3. intros th.
    exact (hr_mean ntraj mu P (angled (fun _ => th)) Hmu Hmua Hth i).
  - apply (is_mean_ext _ (sums_i 3 (fun i s => hahead (cos (polar p lo (s 0%nat))) (step_of mu (frac_part (s 1%nat))) (step_of mu (frac_part (s 2%nat)))) ntraj)); [intros t; symmetry; apply Run|].
    rewrite EN. apply (sums_i_mean 3 _ (fun _ => Spec_diffuse.average p lo vahead)). intros i _. apply block3. intros th.
    exact (ht_mean ntraj mu P (angled (fun _ => th)) Hmu Hmua Hth i).
Qed.
End Table.
