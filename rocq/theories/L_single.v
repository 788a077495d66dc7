(** Lemmas for C158. *)
From Coq Require Import Lra Lia Psatz Reals List.
From Verif Require Import Num Spec Spec_detector Spec_meta Spec_mean Spec_direct Spec_estimate Spec_single M_init M_montecarlo M_detector M_simulation
  L_num L_outcomes L_exits L_weights L_meta L_meta3 L_pool L_meta4 L_simulation L_fieldflow L_mean L_periodic L_local L_rough L_direct L_estimate.
From Coquelicot Require Import Coquelicot.
Import ListNotations.
Open Scope R_scope.

(** ** The integrals *)
Lemma antiderivative (f F : R -> R) a b v : a <= b -> (forall x, a <= x <= b -> is_derive F x (f x)) -> (forall x, a <= x <= b -> continuous f x) ->
  F b - F a = v -> is_RInt f a b v.
Proof.
  intros Hab HF Hf <-. apply (is_RInt_derive F f); rewrite Rmin_left, Rmax_right by lra; assumption.
Qed.
(** exp (k z) over [0, d] *)
Definition exp_area (k d : R) : R := if Reqb k 0 then d else (exp (k * d) - 1) / k.
Lemma exp_integral k d : 0 <= d -> is_RInt (fun z => exp (k * z)) 0 d (exp_area k d).
Proof.
  intros Hd. unfold exp_area. destruct (Reqb k 0) eqn:E.
  - apply Reqb_true in E. subst k. apply (is_RInt_ext (fun _ => 1)); [intros x _; now rewrite Rmult_0_l, exp_0|].
    refine (eq_ind _ (fun v => is_RInt (fun _ => 1) 0 d v) (is_RInt_const 0 d 1) _ _). change ((d - 0) * 1 = d). ring.
  - apply Reqb_false in E. apply (antiderivative _ (fun z => exp (k * z) / k)); [exact Hd| | |].
    + intros x _. auto_derive; [auto|]. field. exact E.
    + intros x _. apply (ex_derive_continuous (fun z => exp (k * z)) x). auto_derive. auto.
    + rewrite Rmult_0_r, exp_0. field. exact E.
Qed.

(** A step drawn from u, cut at the draw at which it reaches d. *)
Section Step.
Variables (mu d : R).
Hypothesis (Hmu : 0 < mu) (Hd : 0 <= d).
Local Notation u0 := (1 - exp (- (mu * d))).
Lemma u0_range : 0 <= u0 < 1.
Proof.
  split; [|pose proof (exp_pos (- (mu * d))); lra]. assert (exp (- (mu * d)) <= 1); [|lra]. rewrite <- exp_0.
  assert (0 <= mu * d) by (apply Rmult_le_pos; lra). destruct (Req_dec (mu * d) 0) as [->|N]; [rewrite Ropp_0; lra|]. left. apply exp_increasing. lra.
Qed.
Lemma frac_id x : 0 < x < 1 -> frac_part x = x.
Proof. intros Hx. unfold frac_part. rewrite (Int_part_unique x 0) by lra. lra. Qed.
Lemma step_lt x : 0 < x < u0 -> step_of mu x < d.
Proof.
  intros Hx. pose proof u0_range. unfold step_of. apply (Rmult_lt_reg_r mu); [exact Hmu|]. unfold Rdiv. rewrite Rmult_assoc, Rinv_l, Rmult_1_r by lra.
  assert (L : ln (exp (- (mu * d))) < ln (1 - x)) by (apply ln_increasing; [apply exp_pos|lra]). rewrite ln_exp in L. lra.
Qed.
Lemma step_gt x : u0 < x < 1 -> d < step_of mu x.
Proof.
  intros Hx. pose proof u0_range. unfold step_of. apply (Rmult_lt_reg_r mu); [exact Hmu|]. unfold Rdiv. rewrite Rmult_assoc, Rinv_l, Rmult_1_r by lra.
  assert (L : ln (1 - x) < ln (exp (- (mu * d)))) by (apply ln_increasing; lra). rewrite ln_exp in L. lra.
Qed.
(** Beyond d. *)
Lemma beyond_integral a c (f : R -> R) : 0 <= a ->
  (forall s, 0 <= s -> s < d -> f s = 0) -> (forall s, d < s -> f s = c * exp (- (a * s))) ->
  is_RInt (fun u => f (step_of mu (frac_part u))) 0 1 (c * (mu / (mu + a)) * exp (- ((mu + a) * d))).
Proof.
  intros Ha H1 H2. pose proof u0_range as U. pose proof (crossing_integral mu a d c Hmu Ha Hd) as Q.
  set (g := fun u => if Rleb d (step_of mu (frac_part u)) then c * exp (- (a * step_of mu (frac_part u))) else 0) in Q.
  assert (E : ex_RInt g 0 u0 /\ ex_RInt g u0 1).
  { assert (X : ex_RInt g 0 1) by (eexists; exact Q). split; [apply (ex_RInt_Chasles_1 g 0 u0 1)|apply (ex_RInt_Chasles_2 g 0 u0 1)]; try exact X; lra. }
  destruct E as [[v1 E1] [v2 E2]].
  pose proof (is_RInt_Chasles g 0 u0 1 _ _ E1 E2) as Q'. pose proof (is_RInt_unique _ _ _ _ Q) as A. pose proof (is_RInt_unique _ _ _ _ Q') as B.
  pose proof (eq_trans (eq_sym A) B) as AB. match goal with |- is_RInt _ _ _ ?v => replace v with (plus v1 v2) by (symmetry; exact AB) end. apply (is_RInt_Chasles _ 0 u0 1).
  - revert E1. apply is_RInt_ext. rewrite Rmin_left, Rmax_right by lra. intros x Hx. unfold g. rewrite frac_id by lra.
    pose proof (step_lt x Hx). rewrite (proj2 (Rleb_false d (step_of mu x))) by lra. rewrite H1; [reflexivity| |assumption].
    apply L_montecarlo.step_nonneg; lra.
  - revert E2. apply is_RInt_ext. rewrite Rmin_left, Rmax_right by lra. intros x Hx. unfold g. rewrite frac_id by lra.
    pose proof (step_gt x Hx). rewrite (proj2 (Rleb_true d (step_of mu x))) by lra. rewrite H2 by assumption. reflexivity.
Qed.
(** Before d: the law of the step has density mu exp(- mu s). *)
Lemma before_integral k c (f : R -> R) :
  (forall s, d < s -> f s = 0) -> (forall s, 0 <= s < d -> f s = c * exp (k * s)) ->
  is_RInt (fun u => f (step_of mu (frac_part u))) 0 1 (c * mu * exp_area (k - mu) d).
Proof.
  intros H1 H2. pose proof u0_range as U.
  assert (Q1 : is_RInt (fun u => f (step_of mu (frac_part u))) u0 1 (scal (1 - u0) 0)).
  { apply (is_RInt_ext (fun _ => 0)); [|apply (is_RInt_const u0 1 0)]. rewrite Rmin_left, Rmax_right by lra. intros x Hx.
    rewrite frac_id by lra. rewrite H1; [reflexivity|]. now apply step_gt. }
  assert (Q2 : is_RInt (fun u => f (step_of mu (frac_part u))) 0 u0 (c * mu * exp_area (k - mu) d)).
  { apply (is_RInt_ext (fun x => c * exp (- (k / mu) * ln (1 - x)))).
    { rewrite Rmin_left, Rmax_right by lra. intros x Hx. rewrite frac_id by lra. pose proof (step_lt x Hx).
      rewrite H2 by (split; [apply L_montecarlo.step_nonneg; lra|assumption]). f_equal. f_equal. unfold step_of. field. lra. }
    unfold exp_area. destruct (Reqb (k - mu) 0) eqn:E.
    - apply Reqb_true in E. assert (k = mu) as -> by lra. apply (antiderivative _ (fun x => - c * ln (1 - x))); [lra| | |].
      + intros x Hx. auto_derive; [lra|]. replace (- (mu / mu) * ln (1 - x)) with (- ln (1 - x)) by (field; lra). rewrite exp_Ropp, exp_ln by lra. field. lra.
      + intros x Hx. apply (ex_derive_continuous (fun x => c * exp (- (mu / mu) * ln (1 - x))) x). auto_derive. lra.
      + rewrite Rminus_0_r, ln_1. replace (1 - u0) with (exp (- (mu * d))) by ring. rewrite ln_exp. ring.
    - apply Reqb_false in E. apply (antiderivative _ (fun x => c * mu / (k - mu) * exp ((1 - k / mu) * ln (1 - x)))); [lra| | |].
      + intros x Hx. auto_derive; [lra|]. change (1 + - x) with (1 - x). change (1 + - (k / mu)) with (1 - k / mu). match goal with |- context[exp ((1 + - (k * / mu)) * ln (1 - x))] => change (1 + - (k * / mu)) with (1 - k / mu) | _ => idtac end.
        replace ((1 - k / mu) * ln (1 - x)) with (ln (1 - x) + - (k / mu) * ln (1 - x)) by ring.
        rewrite exp_plus, exp_ln by lra. field. repeat split; lra.
      + intros x Hx. apply (ex_derive_continuous (fun x => c * exp (- (k / mu) * ln (1 - x))) x). auto_derive. lra.
      + rewrite Rminus_0_r, ln_1, Rmult_0_r, exp_0. replace (1 - u0) with (exp (- (mu * d))) by ring. rewrite ln_exp.
        replace ((1 - k / mu) * - (mu * d)) with ((k - mu) * d) by (field; lra). field. exact E. }
  pose proof (is_RInt_Chasles _ 0 u0 1 _ _ Q2 Q1) as Q. refine (eq_ind _ (fun v => is_RInt _ 0 1 v) Q _ _).
  change (c * mu * exp_area (k - mu) d + (1 - u0) * 0 = c * mu * exp_area (k - mu) d). ring.
Qed.
End Step.

(** Two steps: the light that stops before d at first and then passes the
    surface, at the distance [A + B s] after a first step s. *)
Lemma two_steps mu a d A B W (h : R -> R -> R) : 0 < mu -> 0 <= a -> 0 <= d -> (forall s, 0 <= s < d -> 0 <= A + B * s) ->
  (forall s1 s2, d <= s1 -> h s1 s2 = 0) ->
  (forall s1 s2, 0 <= s1 < d -> 0 <= s2 -> s2 < A + B * s1 -> h s1 s2 = 0) ->
  (forall s1 s2, 0 <= s1 < d -> A + B * s1 < s2 -> h s1 s2 = W * exp (- (a * (s1 + s2)))) ->
  is_mean 2 (fun t => h (step_of mu (frac_part (t 0%nat))) (step_of mu (frac_part (t 1%nat))))
    (W * (mu / (mu + a)) * exp (- ((mu + a) * A)) * mu * exp_area (- (a + (mu + a) * B) - mu) d).
Proof.
  intros Hmu Ha Hd HAB H1 H2 H3. 
  exists (fun t => let s1 := step_of mu (frac_part (t 0%nat)) in
    if Rltb s1 d then W * exp (- (a * s1)) * (mu / (mu + a)) * exp (- ((mu + a) * (A + B * s1))) else 0). split.
  - intros t. assert (E0 : forall x, upd t 1 x 0%nat = t 0%nat) by (intros x; apply upd_other; lia).
    apply (is_RInt_ext (fun x => h (step_of mu (frac_part (t 0%nat))) (step_of mu (frac_part x)))).
    { intros x _. rewrite E0, upd_same. reflexivity. }
    assert (S1 : 0 <= step_of mu (frac_part (t 0%nat))).
    { apply L_montecarlo.step_nonneg; [exact Hmu|]. destruct (base_fp (t 0%nat)). lra. }
    set (s1 := step_of mu (frac_part (t 0%nat))) in *. cbv zeta. destruct (Rltb s1 d) eqn:E.
    + apply Rltb_true in E. apply (beyond_integral mu (A + B * s1) Hmu (HAB s1 ltac:(lra)) a (W * exp (- (a * s1))) (h s1) Ha).
      * intros s Hs Hl. apply H2; lra.
      * intros s Hs. rewrite H3 by lra. rewrite Rmult_assoc, <- exp_plus. do 2 f_equal. ring.
    + apply Rltb_false in E. apply (is_RInt_ext (fun _ => 0)); [intros x _; symmetry; now apply H1|].
      refine (eq_ind _ (fun v => is_RInt (fun _ => 0) 0 1 v) (is_RInt_const 0 1 0) _ _). change ((1 - 0) * 0 = 0). ring.
  - exists (fun _ => W * (mu / (mu + a)) * exp (- ((mu + a) * A)) * mu * exp_area (- (a + (mu + a) * B) - mu) d). split; [|apply is_mean_const].
    intros t. apply (is_RInt_ext (fun x => (fun s1 => if Rltb s1 d then W * exp (- (a * s1)) * (mu / (mu + a)) * exp (- ((mu + a) * (A + B * s1))) else 0) (step_of mu (frac_part x)))).
    { intros x _. rewrite upd_same. reflexivity. }
    refine (before_integral mu d Hmu Hd (- (a + (mu + a) * B)) (W * (mu / (mu + a)) * exp (- ((mu + a) * A)))
      (fun s1 => if Rltb s1 d then W * exp (- (a * s1)) * (mu / (mu + a)) * exp (- ((mu + a) * (A + B * s1))) else 0) _ _).
    + intros s Hs. rewrite (proj2 (Rltb_false s d)) by lra. reflexivity.
    + intros s Hs. rewrite (proj2 (Rltb_true s d)) by lra.
      replace (- ((mu + a) * (A + B * s))) with (- ((mu + a) * A) + - ((mu + a) * B * s)) by ring.
      replace (- (a + (mu + a) * B) * s) with (- (a * s) + - ((mu + a) * B * s)) by ring. rewrite !exp_plus. ring.
Qed.

(** Sums over trajectories, each with its own block of numbers. *)
Definition sums_i (K : nat) (g : nat -> (nat -> R) -> R) (n : nat) (t : nat -> R) : R := total (map (fun i => g i (numbers_of K t i)) (seq 0 n)).
Lemma sums_i_mean K g m n : (forall i, (i < n)%nat -> is_mean K (g i) (m i)) -> is_mean (n * K) (sums_i K g n) (total (map m (seq 0 n))).
Proof.
  induction n as [|n IH]; intros Hg.
  - cbn [Nat.mul is_mean]. intros t. reflexivity.
  - replace (S n * K)%nat with (n * K + K)%nat by lia.
    assert (E : forall t, sums_i K g (S n) t = sums_i K g n t + g n (shift (n * K) K t)).
    { intros t. unfold sums_i. rewrite seq_S, map_app, L_pool.total_app'. change (0 + n)%nat with n. change (total (map _ (cons n nil))) with (g n (shift (n * K) K t) + 0). ring. }
    apply (is_mean_ext _ (fun t => sums_i K g n t + 0 * 0 + g n (shift (n * K) K t))); [intros t; rewrite E; ring|].
    apply (block_mean K (fun _ => 0) (g n) 0 (m n) (is_mean_const K 0) (Hg n ltac:(lia)) (n * K) (sums_i K g n) (fun _ => 0)).
    + intros t t' H. unfold sums_i. f_equal. apply map_ext_in. intros i Hi. apply in_seq in Hi. f_equal.
      apply FunctionalExtensionality.functional_extensionality. intros k. unfold numbers_of. destruct (Nat.ltb_spec k K); [|reflexivity]. apply H. nia.
    + intros t t' _. reflexivity.
    + pose proof (is_mean_plus _ _ _ _ _ (IH (fun i Hi => Hg i ltac:(lia))) (is_mean_const (n * K) (m n))) as Q.
      rewrite seq_S, map_app, L_pool.total_app'. change (0 + n)%nat with n. change (total (map m (cons n nil))) with (m n + 0). rewrite Rplus_0_r.
      revert Q. apply is_mean_ext. intros t. ring.
Qed.

(** ** The second event *)
Section Second.
Variables (nev ntraj : nat) (spot pmin pmax mu : R) (P : params) (D : draws).
Hypothesis (Hn : (1 < nev)%nat) (Hmu : 0 < mu) (Hmua : 0 <= p_muabs P) (Hu : forall n i, 0 <= d_u D n i < 1).
Hypothesis (Hb : p_boundary P = film) (Hr : p_run P = false) (Hg : p_gonio P = None) (Hz : p_zlow P = 0)
  (Hk1 : p_kz0rot P = None) (Hk2 : p_kz0refl P = None)
  (Hth : 0 < p_thickness P) (Hm : 0 < p_nmedium P <= choose_n_tir P)
  (Hf : forall m, p_nfront P = Some m -> 0 < m) (Hbk : forall m, p_nback P = Some m -> 0 < m).
Local Notation nt := (choose_n_tir P).
Local Notation nm := (p_nmedium P).
Local Notation T := (T nev spot mu P D).
Local Notation s1 i := (step_of mu (d_u D 0 i)).
Local Notation s2 i := (step_of mu (d_u D 1 i)).
Local Notation ct i := (cos (fst (d_ang D i 0%nat))).
Lemma Hn0 : (0 < nev)%nat. Proof. lia. Qed.

Lemma T_second i : vz (nth 2 (t_pos (T i)) vzero) = s1 i + ct i * s2 i
  /\ vz (nth 1 (t_dir (T i)) vzero) = ct i /\ nth 1 (t_w (T i)) 0 = exp (- (p_muabs P * (s1 i + s2 i))).
Proof.
  unfold L_direct.T, normal_traj. cbn [t_pos t_dir t_w]. destruct nev as [|[|n]]; [lia|lia|]. unfold steps_of. cbn [seq map repeat].
  assert (K : vz (scat_dir ez (d_ang D i) 1) = ct i).
  { cbn [scat_dir]. unfold scatter1, ez. destruct (d_ang D i 0%nat) as [th ph]. cbn. ring. }
  change (scat_dir ez (d_ang D i) 0) with ez. split; [|split].
  - unfold move. cbn. cbn in K. rewrite K. unfold ez. cbn. ring.
  - exact K.
  - unfold absorb, cumsum. cbn. rewrite Rplus_0_l. do 2 f_equal. ring.
Qed.
Lemma T_len i : (i < ntraj)%nat -> wf_len (T i) /\ dirs_ok (T i) /\ (1 < length (t_dir (T i)))%nat.
Proof.
  intros Hi. destruct (T_ok nev ntraj spot pmin pmax mu P D Hn0 Hmu Hmua Hu i Hi) as (W & Dk & _). split; [exact W|]. split; [exact Dk|].
  unfold L_direct.T, normal_traj. cbn [t_dir]. now rewrite map_length, seq_length.
Qed.
(** Inside the film after the first step: what the second event does. *)
Lemma second_exit i : (i < ntraj)%nat -> s1 i < p_thickness P ->
  (v_r (film_view P (T i)) = 2%nat <-> steep nt nm (ct i) /\ s1 i + ct i * s2 i < 0)
  /\ (v_t (film_view P (T i)) = 2%nat <-> steep nt nm (ct i) /\ p_thickness P <= s1 i + ct i * s2 i).
Proof.
  intros Hi Hs. destruct (T_len i Hi) as (W & Dk & L). destruct (T_first nev spot mu P D Hn0 i) as (Z0 & Z1 & _ & _). destruct (T_second i) as (Z2 & K1 & _).
  assert (S0 : 0 <= s1 i) by (apply L_montecarlo.step_nonneg; [exact Hmu|apply Hu]).
  unfold film_view. cbn [v_r v_t]. rewrite Hb, Hz.
  destruct (find_valid_exits nt nm (p_thickness P) 0 film (T i)) as [[ps ng] ti] eqn:He.
  destruct (trajectory_outcome _ _ _ _ _ _ _ _ _ W He) as (r & tt & st & Hev & Ho).
  pose proof (film_exit_characterised nt nm (p_thickness P) 0 (T i) ps ng ti 1 0 W Dk ltac:(lra) Hm He L) as X.
  cbn zeta in X. rewrite Z1, Z2, K1 in X. destruct X as (Xp & Xn & _); [unfold in_slab; lra|].
  assert (F : steep nt nm (ct i) -> (s1 i + ct i * s2 i < 0 -> exists t', event_indices nt nm (p_thickness P) 0 film (T i) = (2%nat, 0%nat, 0%nat, t'))
     /\ (p_thickness P <= s1 i + ct i * s2 i -> exists t', event_indices nt nm (p_thickness P) 0 film (T i) = (0%nat, 2%nat, 0%nat, t'))).
  { intros St. pose proof (first_exit_physical nt nm (p_thickness P) (T i) 1 W Dk Hth Hm L) as Y. cbv zeta in Y. rewrite Z2, K1 in Y. apply Y; [|exact St].
    intros [|[|j]] Hj; [rewrite Z0; lra|rewrite Z1; lra|lia]. }
  split; split.
  - intros E. rewrite Hev in E. cbn [i_refl] in E. subst r.
    destruct Ho as [(_ & _ & E & _)|[(k & _ & Nk & _ & E & _)|(k & _ & _ & _ & E & _)]]; try discriminate.
    assert (k = 1%nat) as -> by lia. destruct (proj1 Xn Nk) as [St [[_ U]|[O _]]]; [|discriminate]. split; [exact St|]. lra.
  - intros [St H]. destruct (F St) as [G _]. destruct (G H) as (t' & ->). reflexivity.
  - intros E. rewrite Hev in E. cbn [i_trans] in E. subst tt.
    destruct Ho as [(_ & _ & _ & E & _)|[(k & _ & _ & _ & _ & E & _)|(k & _ & Pk & _ & _ & E & _)]]; try discriminate.
    assert (k = 1%nat) as -> by lia. destruct (proj1 Xp Pk) as [St [[_ U]|[O _]]]; [|discriminate]. split; [exact St|]. lra.
  - intros [St H]. destruct (F St) as [_ G]. destruct (G H) as (t' & ->). reflexivity.
Qed.
Lemma second_gone i : (i < ntraj)%nat -> p_thickness P <= s1 i -> v_r (film_view P (T i)) <> 2%nat /\ v_t (film_view P (T i)) <> 2%nat.
Proof.
  intros Hi Hs. destruct (T_len i Hi) as (W & Dk & L). destruct (T_first nev spot mu P D Hn0 i) as (Z0 & Z1 & K0 & _).
  unfold film_view. cbn [v_r v_t]. rewrite Hb, Hz.
  destruct (first_exit_physical nt nm (p_thickness P) (T i) 0 W Dk Hth Hm ltac:(lia)) as [_ X].
  - intros j Hj. replace j with 0%nat by lia. rewrite Z0. lra.
  - rewrite K0. now apply steep_ez.
  - rewrite Z1 in X. destruct (X Hs) as (ti & ->). cbn. lia.
Qed.
(** What it carries through the surface. *)
Lemma second_pass i :
  (v_r (film_view P (T i)) = 2%nat -> c_rp P false (film_view P (T i))
     = through nm (p_nfront P) nt * exp (- (p_muabs P * (s1 i + s2 i))) * pf1 nt (p_nfront P) nm (acos (Rabs (ct i))))
  /\ (v_t (film_view P (T i)) = 2%nat -> c_tp P false (film_view P (T i))
     = through nm (p_nfront P) nt * exp (- (p_muabs P * (s1 i + s2 i))) * pf1 nt (p_nback P) nm (acos (Rabs (ct i)))).
Proof.
  assert (Hin : v_inc P false (film_view P (T i)) = through nm (p_nfront P) nt).
  { unfold v_inc. rewrite (T_in nev spot mu P D Hn0 Hb i). cbn [nan_to_num]. apply pf1_normal; assumption || lra. }
  destruct (T_second i) as (_ & K1 & W1).
  assert (KZ : nth 1 (map vz (t_dir (T i))) 0 = ct i) by (etransitivity; [exact (map_nth vz (t_dir (T i)) vzero 1)|]; exact K1).
  split; intros E.
  - unfold c_rp, c_rw. rewrite Hin. unfold film_view in E |- *. cbn [v_r v_wr v_ar] in *. rewrite E. unfold exit_angle. rewrite Hb.
    unfold film_exit_angle. cbn [select_col]. rewrite W1, KZ. reflexivity.
  - unfold c_tp, c_tw. rewrite Hin. unfold film_view in E |- *. cbn [v_t v_wt v_at] in *. rewrite E. unfold exit_angle. rewrite Hb.
    unfold film_exit_angle. cbn [select_col]. rewrite W1, KZ. reflexivity.
Qed.

Definition once_r (i : nat) : R := if Nat.eqb (v_r (film_view P (T i))) 2 then c_rp P false (film_view P (T i)) / INR ntraj else 0.
Definition once_t (i : nat) : R := if Nat.eqb (v_t (film_view P (T i))) 2 then c_tp P false (film_view P (T i)) / INR ntraj else 0.
Lemma once_run : once_reflected (film_run nev ntraj spot 0 0 pmin pmax mu P D) = total (map once_r (seq 0 ntraj))
  /\ once_transmitted (film_run nev ntraj spot 0 0 pmin pmax mu P D) = total (map once_t (seq 0 ntraj)).
Proof.
  rewrite (normal_run nev ntraj spot pmin pmax mu P D Hn0), crt_view by assumption.
  destruct (views_ok nev ntraj spot pmin pmax mu P D Hn0 Hmu Hmua Hu Hb Hg _ eq_refl) as (V1 & V2 & V3).
  set (v := map (film_view P) (map T (seq 0 ntraj))) in *.
  assert (Lv : length v = ntraj) by (unfold v; rewrite !map_length, seq_length; reflexivity).
  pose proof (answer_closed P false Hk1 Hk2 v) as A. rewrite V2, V3 in A.
  destruct (view_result P false v) as [[o|]|e] eqn:E.
  - unfold view_result in E. rewrite Hk1, Hk2, enter_closed in E by assumption.
    destruct (bad_in P false v); [discriminate|].
    destruct (negb false && existsb past (map (fun a => nan_to_num (v_in P a)) v))%bool; [discriminate|]. cbn [bind] in E.
    rewrite exit_closed in E.
    destruct (existsb past (map v_ar v) || existsb past (map v_at v))%bool; [discriminate|]. cbn [bind] in E.
    match type of E with match ?d with _ => _ end = _ => destruct d as [[[[r t] rp] tp]|]; [|discriminate] end.
    apply L_rough.Ok_inj in E. apply (f_equal (fun x => match x with Some y => y | None => o end)) in E. subst o.
    unfold once_reflected, once_transmitted. cbn [o_trans_i o_trans_pass o_refl_i o_refl_pass x_trans_pass x_refl_pass]. rewrite !map_map, !combine_maps, !map_map, Lv.
    unfold v. rewrite !map_map. split; reflexivity.
  - cbn [answer] in A. destruct (bad_known P false v) eqn:B3; [|discriminate].
    unfold bad_known in B3. rewrite Hb in B3. apply Reqb_true in B3. unfold c_known in B3. cbn [once_reflected once_transmitted].
    assert (Z : forall l, (forall i, In i l -> (i < ntraj)%nat) ->
       0 <= total (map (fun i => c_ab P false (film_view P (T i)) + c_rp P false (film_view P (T i)) + c_tp P false (film_view P (T i))) l)
       /\ (total (map (fun i => c_ab P false (film_view P (T i)) + c_rp P false (film_view P (T i)) + c_tp P false (film_view P (T i))) l) = 0 ->
            total (map once_r l) = 0 /\ total (map once_t l) = 0)).
    { induction l as [|i l IH]; intros Hl; cbn [map total]; [lra|].
      assert (Ii : In (film_view P (T i)) v).
      { unfold v. rewrite map_map. apply in_map_iff. exists i. split; [reflexivity|]. apply in_seq. specialize (Hl i (or_introl eq_refl)). lia. }
      destruct (c_range P false v ltac:(lra) ltac:(lra) Hf Hbk V3 _ Ii (V1 _ Ii)) as (R1 & R2 & _ & _ & _ & R3 & _).
      destruct IH as [I1 I2]; [intros; apply Hl; now right|]. split; [lra|]. intros H.
      assert (c_tp P false (film_view P (T i)) = 0) as Zt by lra. assert (c_rp P false (film_view P (T i)) = 0) as Zr by lra.
      destruct I2 as [-> ->]; [lra|]. unfold once_r, once_t. rewrite Zt, Zr.
      destruct (Nat.eqb (v_r _) 2), (Nat.eqb (v_t _) 2); split; unfold Rdiv; ring. }
    destruct (Z (seq 0 ntraj)) as [_ Z2]; [intros i Hi; apply in_seq in Hi; lia|]. unfold v in B3. rewrite !map_map in B3.
    destruct (Z2 B3) as [-> ->]. split; reflexivity.
  - cbn [answer] in A. destruct (bad_known P false v); discriminate.
Qed.
End Second.

(** ** The mean over the first two steps *)
Lemma slab_back_steps mu a d c W : 0 < mu -> 0 <= a -> c < 0 ->
  W * (mu / (mu + a)) * exp (- ((mu + a) * 0)) * mu * exp_area (- (a + (mu + a) * / Rabs c) - mu) d
  = W * (mu / (mu + a)) ^ 2 * slab_back (mu + a) d c.
Proof.
  intros Hmu Ha Hc. unfold slab_back, exp_area. rewrite Rabs_left by exact Hc. set (b := - c). assert (Hb : 0 < b) by (unfold b; lra).
  assert (0 < / b) by now apply Rinv_0_lt_compat. assert (0 < (mu + a) * / b) by (apply Rmult_lt_0_compat; lra).
  rewrite (proj2 (Reqb_false (- (a + (mu + a) * / b) - mu) 0)) by lra.
  replace ((- (a + (mu + a) * / b) - mu) * d) with (- ((mu + a) * d * (1 + / b))) by ring. rewrite Rmult_0_r, Ropp_0, exp_0.
  field. repeat split; try lra; nra.
Qed.
Lemma slab_ahead_steps mu a d c W : 0 < mu -> 0 <= a -> 0 < c <= 1 ->
  W * (mu / (mu + a)) * exp (- ((mu + a) * (d / c))) * mu * exp_area (- (a + (mu + a) * (- / c)) - mu) d
  = W * (mu / (mu + a)) ^ 2 * slab_ahead (mu + a) d c.
Proof.
  intros Hmu Ha Hc. unfold slab_ahead, exp_area.
  replace (- (a + (mu + a) * - / c) - mu) with ((mu + a) * (1 - c) / c) by (field; lra). destruct (Reqb c 1) eqn:E.
  - apply Reqb_true in E. subst c. replace ((mu + a) * (1 - 1) / 1) with 0 by field. rewrite (proj2 (Reqb_true 0 0)) by reflexivity.
    replace ((mu + a) * (d / 1)) with ((mu + a) * d) by field. field. lra.
  - apply Reqb_false in E. assert (0 < (mu + a) * (1 - c) / c) by (apply Rdiv_lt_0_compat; [apply Rmult_lt_0_compat; lra|lra]).
    rewrite (proj2 (Reqb_false ((mu + a) * (1 - c) / c) 0)) by lra.
    replace ((mu + a) * d / c) with ((mu + a) * (d / c)) by (field; lra).
    replace (- ((mu + a) * d)) with (- ((mu + a) * (d / c)) + (mu + a) * (1 - c) / c * d) by (field; lra). rewrite exp_plus. field. repeat split; lra.
Qed.
Lemma two_draws_ok D t : (forall n i, 0 <= d_u D n i < 1) -> forall n i, 0 <= d_u (with_two_draws t D) n i < 1.
Proof.
  intros H [|[|n]] i; cbn [d_u with_two_draws].
  - destruct (base_fp (t (2 * i)%nat)); lra.
  - destruct (base_fp (t (2 * i + 1)%nat)); lra.
  - apply H.
Qed.

Section Mean.
Variables (nev ntraj : nat) (spot pmin pmax mu : R) (P : params) (D : draws) (pass : nat -> R).
Hypothesis (Hn : (1 < nev)%nat) (Ht : (0 < ntraj)%nat) (Hmu : 0 < mu) (Hmua : 0 <= p_muabs P) (Hu : forall n i, 0 <= d_u D n i < 1).
Hypothesis (Hb : p_boundary P = film) (Hr : p_run P = false) (Hg : p_gonio P = None) (Hz : p_zlow P = 0)
  (Hk1 : p_kz0rot P = None) (Hk2 : p_kz0refl P = None)
  (Hth : 0 < p_thickness P) (Hm : 0 < p_nmedium P <= choose_n_tir P)
  (Hf : forall m, p_nfront P = Some m -> 0 < m) (Hbk : forall m, p_nback P = Some m -> 0 < m).
Local Notation nt := (choose_n_tir P).
Local Notation nm := (p_nmedium P).
Local Notation ct i := (cos (fst (d_ang D i 0%nat))).
Local Notation d := (p_thickness P).
Local Notation a := (p_muabs P).
Local Notation ent := (through nm (p_nfront P) nt).
Local Notation run t := (film_run nev ntraj spot 0 0 pmin pmax mu P (with_two_draws t D)).
Local Notation S1 t i := (step_of mu (frac_part (t (2 * i)%nat))).
Local Notation S2 t i := (step_of mu (frac_part (t (2 * i + 1)%nat))).
Definition hr (i : nat) (x y : R) : R :=
  if (Rltb x d && Rltb (x + ct i * y) 0)%bool then ent * pf1 nt (p_nfront P) nm (acos (Rabs (ct i))) / INR ntraj * exp (- (a * (x + y))) else 0.
Definition ht (i : nat) (x y : R) : R :=
  if (Rltb x d && Rleb d (x + ct i * y))%bool then ent * pf1 nt (p_nback P) nm (acos (Rabs (ct i))) / INR ntraj * exp (- (a * (x + y))) else 0.
Lemma flat_zero g i : (forall m, g = Some m -> 0 < m) -> ~ steep nt nm (ct i) -> pf1 nt g nm (acos (Rabs (ct i))) = 0.
Proof.
  intros Hgm N. assert (C : 0 <= Rabs (ct i) <= 1) by (split; [apply Rabs_pos|apply Rabs_le; pose proof (COS_bound (fst (d_ang D i 0%nat))); lra]).
  apply pf1_tir; try assumption; try lra.
  - destruct (acos_bound (Rabs (ct i))) as [A0 A1]. split; [exact A0|]. apply (L_rough.film_angle_le (ct i)).
  - rewrite sin_acos by lra. unfold steep in N. apply Rnot_lt_le in N. rewrite <- Rsqr_abs. unfold Rsqr. replace (ct i * ct i) with (ct i ^ 2) by ring. exact N.
Qed.
Lemma once_r_h t i : (i < ntraj)%nat -> once_r nev ntraj spot mu P (with_two_draws t D) i = hr i (S1 t i) (S2 t i).
Proof.
  intros Hi. unfold once_r, hr. pose proof (two_draws_ok D t Hu) as Hu'.
  destruct (Rltb (S1 t i) d) eqn:E; cbn [andb].
  - apply Rltb_true in E.
    destruct (second_exit nev ntraj spot pmin pmax mu P (with_two_draws t D) Hn Hmu Hmua Hu' Hb Hz Hth Hm i Hi E) as [X _].
    destruct (second_pass nev spot mu P (with_two_draws t D) Hn Hb Hm Hf i) as [Y _].
    change (d_ang (with_two_draws t D) i 0%nat) with (d_ang D i 0%nat) in X, Y.
    change (d_u (with_two_draws t D) 0 i) with (frac_part (t (2 * i)%nat)) in X, Y. change (d_u (with_two_draws t D) 1 i) with (frac_part (t (2 * i + 1)%nat)) in X, Y.
    destruct (Nat.eqb_spec (v_r (film_view P (T nev spot mu P (with_two_draws t D) i))) 2) as [V|V].
    + rewrite (Y V). destruct (proj1 X V) as [_ L]. rewrite (proj2 (Rltb_true _ _) L). unfold Rdiv. ring.
    + destruct (Rltb (S1 t i + ct i * S2 t i) 0) eqn:L; [|reflexivity]. apply Rltb_true in L.
      rewrite flat_zero; [unfold Rdiv; ring|exact Hf|]. intros St. apply V, X. now split.
  - apply Rltb_false in E.
    destruct (second_gone nev ntraj spot pmin pmax mu P (with_two_draws t D) Hn Hmu Hmua Hu' Hb Hz Hth Hm i Hi E) as [X _].
    now rewrite (proj2 (Nat.eqb_neq _ _) X).
Qed.
Lemma once_t_h t i : (i < ntraj)%nat -> once_t nev ntraj spot mu P (with_two_draws t D) i = ht i (S1 t i) (S2 t i).
Proof.
  intros Hi. unfold once_t, ht. pose proof (two_draws_ok D t Hu) as Hu'.
  destruct (Rltb (S1 t i) d) eqn:E; cbn [andb].
  - apply Rltb_true in E.
    destruct (second_exit nev ntraj spot pmin pmax mu P (with_two_draws t D) Hn Hmu Hmua Hu' Hb Hz Hth Hm i Hi E) as [_ X].
    destruct (second_pass nev spot mu P (with_two_draws t D) Hn Hb Hm Hf i) as [_ Y].
    change (d_ang (with_two_draws t D) i 0%nat) with (d_ang D i 0%nat) in X, Y.
    change (d_u (with_two_draws t D) 0 i) with (frac_part (t (2 * i)%nat)) in X, Y. change (d_u (with_two_draws t D) 1 i) with (frac_part (t (2 * i + 1)%nat)) in X, Y.
    destruct (Nat.eqb_spec (v_t (film_view P (T nev spot mu P (with_two_draws t D) i))) 2) as [V|V].
    + rewrite (Y V). destruct (proj1 X V) as [_ L]. rewrite (proj2 (Rleb_true _ _) L). unfold Rdiv. ring.
    + destruct (Rleb d (S1 t i + ct i * S2 t i)) eqn:L; [|reflexivity]. apply Rleb_true in L.
      rewrite flat_zero; [unfold Rdiv; ring|exact Hbk|]. intros St. apply V, X. now split.
  - apply Rltb_false in E.
    destruct (second_gone nev ntraj spot pmin pmax mu P (with_two_draws t D) Hn Hmu Hmua Hu' Hb Hz Hth Hm i Hi E) as [_ X].
    now rewrite (proj2 (Nat.eqb_neq _ _) X).
Qed.
Lemma step0 x : 0 <= step_of mu (frac_part x).
Proof. apply L_montecarlo.step_nonneg; [exact Hmu|]. destruct (base_fp x). lra. Qed.
Local Notation om := (mu / (mu + a)).
Lemma hr_mean i : is_mean 2 (fun t => hr i (step_of mu (frac_part (t 0%nat))) (step_of mu (frac_part (t 1%nat))))
  (if Rltb (ct i) 0 then ent * pf1 nt (p_nfront P) nm (acos (Rabs (ct i))) / INR ntraj * om ^ 2 * slab_back (mu + a) d (ct i) else 0).
Proof.
  destruct (Rltb (ct i) 0) eqn:E.
  - apply Rltb_true in E. rewrite <- slab_back_steps by assumption. assert (Hi : 0 < / - ct i) by (apply Rinv_0_lt_compat; lra).
    rewrite Rabs_left by exact E. apply two_steps; try assumption; try lra.
    + intros s Hs. assert (0 <= / - ct i * s) by (apply Rmult_le_pos; lra). lra.
    + intros x y Hx. unfold hr. rewrite (proj2 (Rltb_false x d)) by lra. reflexivity.
    + intros x y Hx Hy Hl. unfold hr. replace (Rltb (x + ct i * y) 0) with false; [now rewrite Bool.andb_false_r|]. symmetry. apply Rltb_false.
      rewrite Rplus_0_l in Hl. apply (Rmult_lt_compat_l (- ct i)) in Hl; [|lra]. rewrite <- Rmult_assoc, Rinv_r in Hl by lra. lra.
    + intros x y Hx Hl. unfold hr. rewrite (proj2 (Rltb_true x d)) by lra. rewrite (proj2 (Rltb_true (x + ct i * y) 0)).
      * rewrite Rabs_left by exact E. reflexivity.
      * rewrite Rplus_0_l in Hl. apply (Rmult_lt_compat_l (- ct i)) in Hl; [|lra]. rewrite <- Rmult_assoc, Rinv_r in Hl by lra. lra.
  - apply Rltb_false in E. apply (is_mean_ext _ (fun _ => 0)); [|apply is_mean_const]. intros t. unfold hr.
    pose proof (step0 (t 0%nat)) as A0. pose proof (step0 (t 1%nat)) as A1. set (x := step_of mu (frac_part (t 0%nat))) in *. set (y := step_of mu (frac_part (t 1%nat))) in *.
    assert (0 <= ct i * y) by (now apply Rmult_le_pos). rewrite (proj2 (Rltb_false (x + ct i * y) 0)) by lra. now rewrite Bool.andb_false_r.
Qed.
Lemma ht_mean i : is_mean 2 (fun t => ht i (step_of mu (frac_part (t 0%nat))) (step_of mu (frac_part (t 1%nat))))
  (if Rltb 0 (ct i) then ent * pf1 nt (p_nback P) nm (acos (Rabs (ct i))) / INR ntraj * om ^ 2 * slab_ahead (mu + a) d (ct i) else 0).
Proof.
  destruct (Rltb 0 (ct i)) eqn:E.
  - apply Rltb_true in E. rewrite <- slab_ahead_steps by (try assumption; pose proof (COS_bound (fst (d_ang D i 0%nat))); lra). assert (Hi : 0 < / ct i) by (apply Rinv_0_lt_compat; lra).
    assert (G : forall x y, x < d -> (d / ct i + - / ct i * x < y <-> d < x + ct i * y) /\ (y < d / ct i + - / ct i * x <-> x + ct i * y < d)).
    { intros x y Hx. replace (d / ct i + - / ct i * x) with ((d - x) * / ct i) by (unfold Rdiv; ring).
      assert (Q : ct i * ((d - x) * / ct i) = d - x) by (field; lra). split; split; intros H.
      - apply (Rmult_lt_compat_l (ct i)) in H; [|lra]. lra.
      - apply (Rmult_lt_reg_l (ct i)); lra.
      - apply (Rmult_lt_compat_l (ct i)) in H; [|lra]. lra.
      - apply (Rmult_lt_reg_l (ct i)); lra. }
    apply two_steps; try assumption; try lra.
    + intros s Hs. replace (d / ct i + - / ct i * s) with ((d - s) * / ct i) by (unfold Rdiv; ring). apply Rmult_le_pos; lra.
    + intros x y Hx. unfold ht. rewrite (proj2 (Rltb_false x d)) by lra. reflexivity.
    + intros x y Hx Hy Hl. unfold ht. replace (Rleb d (x + ct i * y)) with false; [now rewrite Bool.andb_false_r|]. symmetry. apply Rleb_false.
      apply G in Hl; lra.
    + intros x y Hx Hl. unfold ht. rewrite (proj2 (Rltb_true x d)) by lra. rewrite (proj2 (Rleb_true d (x + ct i * y))); [reflexivity|].
      apply G in Hl; lra.
  - apply Rltb_false in E. apply (is_mean_ext _ (fun _ => 0)); [|apply is_mean_const]. intros t. unfold ht.
    pose proof (step0 (t 0%nat)) as A0. pose proof (step0 (t 1%nat)) as A1. set (x := step_of mu (frac_part (t 0%nat))) in *. set (y := step_of mu (frac_part (t 1%nat))) in *.
    destruct (Rltb x d) eqn:X; [|reflexivity]. apply Rltb_true in X.
    assert (ct i * y <= 0) by (rewrite <- (Rmult_0_l y); now apply Rmult_le_compat_r). rewrite (proj2 (Rleb_false d (x + ct i * y))) by lra. reflexivity.
Qed.
Lemma numbers2 t i : numbers_of 2 t i 0%nat = t (2 * i)%nat /\ numbers_of 2 t i 1%nat = t (2 * i + 1)%nat.
Proof. unfold numbers_of. cbn [Nat.ltb Nat.leb]. split; f_equal; lia. Qed.
Lemma once_means :
  is_mean (ntraj * 2) (fun t => once_reflected (run t)) (total (map (fun i =>
     if Rltb (ct i) 0 then ent * pf1 nt (p_nfront P) nm (acos (Rabs (ct i))) / INR ntraj * om ^ 2 * slab_back (mu + a) d (ct i) else 0) (seq 0 ntraj)))
  /\ is_mean (ntraj * 2) (fun t => once_transmitted (run t)) (total (map (fun i =>
     if Rltb 0 (ct i) then ent * pf1 nt (p_nback P) nm (acos (Rabs (ct i))) / INR ntraj * om ^ 2 * slab_ahead (mu + a) d (ct i) else 0) (seq 0 ntraj))).
Proof.
  split.
  - apply (is_mean_ext _ (sums_i 2 (fun i t => hr i (step_of mu (frac_part (t 0%nat))) (step_of mu (frac_part (t 1%nat)))) ntraj)).
    + intros t. destruct (once_run nev ntraj spot pmin pmax mu P (with_two_draws t D) Hn Hmu Hmua (two_draws_ok D t Hu) Hb Hr Hg Hk1 Hk2 Hm Hf Hbk) as [-> _].
      unfold sums_i. f_equal. apply map_ext_in. intros i Hi. apply in_seq in Hi. rewrite once_r_h by lia. destruct (numbers2 t i) as [-> ->]. reflexivity.
    + apply sums_i_mean. intros i _. apply hr_mean.
  - apply (is_mean_ext _ (sums_i 2 (fun i t => ht i (step_of mu (frac_part (t 0%nat))) (step_of mu (frac_part (t 1%nat)))) ntraj)).
    + intros t. destruct (once_run nev ntraj spot pmin pmax mu P (with_two_draws t D) Hn Hmu Hmua (two_draws_ok D t Hu) Hb Hr Hg Hk1 Hk2 Hm Hf Hbk) as [_ ->].
      unfold sums_i. f_equal. apply map_ext_in. intros i Hi. apply in_seq in Hi. rewrite once_t_h by lia. destruct (numbers2 t i) as [-> ->]. reflexivity.
    + apply sums_i_mean. intros i _. apply ht_mean.
Qed.
End Mean.
