(** Effective media: C163. *)
From Coq Require Import Lra Lia Psatz Permutation.
From Coquelicot Require Import Rcomplements.
From Verif Require Import Spec L_num M_refractive_index Spec_optics L_effindex L_bruggeman
  Spec_mixture L_mixture.
From Coquelicot Require Import Complex.
Open Scope R_scope.

Lemma constituents_eq : forall np nm vf,
  constituents np nm vf = combine (bg_fractions vf) (np ++ [nm]).
Proof. intros. unfold constituents. rewrite bg_fractions_eq. reflexivity. Qed.

(** C163: for every mixture of transparent constituents, Bruggeman's
    permittivity (the square of the index) lies between the harmonic and the
    arithmetic average of the constituents' permittivities over the volume
    (Wiener's bounds); *)
Theorem C163_bruggeman_wiener : forall fsolve np nm vf n,
  mixture np nm vf -> bruggeman_index fsolve np nm vf n ->
  1 / volume_average (fun m => 1 / m ^ 2) (constituents np nm vf)
  <= n ^ 2
  <= volume_average (fun m => m ^ 2) (constituents np nm vf).
Proof.
  intros fs np nm vf n HM H. destruct (mix_root np nm vf HM fs n H) as [P E].
  rewrite constituents_eq.
  pose proof (mix_arithmetic np nm vf HM n P E) as A.
  pose proof (mix_harmonic np nm vf HM n P E) as B.
  replace (n ^ 2) with (n * n) by ring. split; [|exact A].
  set (V := volume_average _ _) in B |- *. clearbody V.
  assert (0 < n * n) by nra. assert (0 < V) by nra.
  apply Rle_div_l; [assumption | lra].
Qed.
Print Assumptions C163_bruggeman_wiener.

(** so does Maxwell-Garnett's. *)
Theorem C163_garnett_wiener : forall fsolve np nm phi n,
  0 < np -> 0 < nm -> 0 <= phi <= 1 -> garnett_index fsolve np nm phi n ->
  1 / (phi / np ^ 2 + (1 - phi) / nm ^ 2)
  <= n ^ 2 <= phi * np ^ 2 + (1 - phi) * nm ^ 2.
Proof.
  intros fs p e f n Hp He Hf H. unfold garnett_index in H.
  rewrite (n_eff_mg_real fs p e f Hp He Hf) in H. injection H as <-.
  assert (P : 0 < p * p) by nra. assert (Q : 0 < e * e) by nra.
  pose proof (mg_eps_pos _ _ f P Q Hf) as T0.
  rewrite pow2_sqrt by lra.
  pose proof (mg_eps_relation _ _ f P Q Hf) as E.
  pose proof (mg_den_pos _ _ f P Q Hf) as D.
  replace (p ^ 2) with (p * p) by ring. replace (e ^ 2) with (e * e) by ring.
  set (u := p * p) in *. set (v := e * e) in *. set (t := mg_eps u v f) in *.
  assert (Et : t = v * ((2 * v + u + 2 * f * (u - v)) / (2 * v + u - f * (u - v)))) by reflexivity.
  clearbody u v. clearbody t. subst t.
  pose proof (pow2_ge_0 (u - v)) as SQ.
  split.
  - assert (Z : 0 < f * v + (1 - f) * u) by nra.
    apply Rminus_le_0.
    replace (_ - _)
      with (v * (2 * (f * (1 - f)) * (u - v) ^ 2)
            / ((f * v + (1 - f) * u) * (2 * v + u - f * (u - v)))) by (field; nra).
    apply Rmult_le_pos; [|apply Rlt_le, Rinv_0_lt_compat; nra].
    apply Rmult_le_pos; [lra|]. apply Rmult_le_pos; [nra | exact SQ].
  - apply Rminus_le_0.
    replace (_ - _) with (f * (1 - f) * (u - v) ^ 2 / (2 * v + u - f * (u - v)))
      by (field; nra).
    apply Rmult_le_pos; [|apply Rlt_le, Rinv_0_lt_compat; nra].
    apply Rmult_le_pos; [nra | exact SQ].
Qed.
Print Assumptions C163_garnett_wiener.

(** Bruggeman's index is tighter still: with one kind of particle it lies
    between Maxwell-Garnett for the particles in the matrix and
    Maxwell-Garnett for the matrix in the particles (the bounds of Hashin and
    Shtrikman). *)
Theorem C163_hashin_shtrikman : forall fsolve np nm phi n lower upper,
  0 < nm -> nm <= np -> 0 <= phi <= 1 ->
  bruggeman_index fsolve [np] nm [phi] n ->
  garnett_index fsolve np nm phi lower ->
  garnett_index fsolve nm np (1 - phi) upper ->
  lower <= n <= upper.
Proof.
  intros fs p e f n lo up He Hpe Hf H L U. assert (Hp : 0 < p) by lra.
  unfold garnett_index in L, U.
  rewrite n_eff_mg_real in L by assumption.
  rewrite n_eff_mg_real in U by (assumption || lra).
  injection L as <-. injection U as <-.
  pose proof (one_mixture p e f Hp He Hf) as HM.
  destruct (mix_root _ _ _ HM fs n H) as [N E].
  assert (P : 0 < p * p) by nra. assert (Q : 0 < e * e) by nra.
  assert (PQ : e * e <= p * p) by nra.
  assert (Hf' : 0 <= 1 - f <= 1) by lra.
  split.
  - pose proof (mg_eps_pos _ _ f P Q Hf) as T0.
    destruct (mg_in_bg (p * p) (e * e) f P Q Hf) as (k & K0 & K).
    apply (mix_compare _ _ _ HM n _ N (sqrt_lt_R0 _ T0) E).
    rewrite sqrt_sqrt by lra. rewrite one_fractions. cbn [app].
    rewrite two_real, K. apply Rmult_le_pos; lra.
  - pose proof (mg_eps_pos _ _ (1 - f) Q P Hf') as T0.
    destruct (mg_in_bg (e * e) (p * p) (1 - f) Q P Hf') as (k & K0 & K).
    apply (mix_compare_le _ _ _ HM n _ N (sqrt_lt_R0 _ T0) E).
    rewrite sqrt_sqrt by lra. rewrite one_fractions. cbn [app].
    rewrite two_real, Rplus_comm.
    replace (1 - (1 - f)) with f in K by ring. rewrite K. nra.
Qed.
Print Assumptions C163_hashin_shtrikman.

(** Bruggeman's index does not depend on which constituent is called the
    matrix, nor on the order of the others. *)
Theorem C163_bruggeman_order : forall fsolve fsolve' np nm vf np' nm' vf' n n',
  mixture np nm vf -> mixture np' nm' vf' ->
  Permutation (constituents np nm vf) (constituents np' nm' vf') ->
  bruggeman_index fsolve np nm vf n -> bruggeman_index fsolve' np' nm' vf' n' ->
  n = n'.
Proof.
  intros fs fs' np nm vf np' nm' vf' n n' M M' HP H H'.
  destruct (mix_root _ _ _ M fs n H) as [P E].
  destruct (mix_root _ _ _ M' fs' n' H') as [P' E'].
  assert (G : bg_real (bg_fractions vf) (np ++ [nm]) (n' * n') = 0).
  { rewrite bg_real_average, <- constituents_eq.
    rewrite (average_permutation _ _ _ HP). rewrite constituents_eq, <- bg_real_average.
    exact E'. }
  apply Rle_antisym.
  - apply (mix_compare_le _ _ _ M n n' P P' E). lra.
  - apply (mix_compare _ _ _ M n n' P P' E). lra.
Qed.
Print Assumptions C163_bruggeman_order.

(** Raising the index of any constituent never lowers the effective index. *)
Theorem C163_bruggeman_index_monotone : forall fsolve fsolve' np nm np' nm' vf n n',
  mixture np nm vf -> Forall2 Rle np np' -> nm <= nm' ->
  bruggeman_index fsolve np nm vf n -> bruggeman_index fsolve' np' nm' vf n' ->
  n <= n'.
Proof.
  intros fs fs' np nm np' nm' vf n n' M HN Hm H H'.
  assert (M' : mixture np' nm' vf).
  { destruct M as (A & B & D & E & L). unfold mixture.
    split; [|split; [lra | split; [assumption | split; [assumption|]]]].
    - clear - A HN. induction HN; [constructor|].
      inversion A; subst. constructor; [lra | auto].
    - rewrite <- L. clear - HN. induction HN; cbn; congruence. }
  destruct (mix_root _ _ _ M fs n H) as [P E].
  destruct (mix_root _ _ _ M' fs' n' H') as [P' E'].
  apply (mix_compare _ _ _ M' n' n P' P E').
  rewrite <- E. apply bg_real_index.
  - nra.
  - apply (mix_F np nm vf M).
  - apply (mix_N np nm vf M).
  - apply Forall2_app; [exact HN | constructor; [exact Hm | constructor]].
Qed.
Print Assumptions C163_bruggeman_index_monotone.

(** Trading matrix for particles of a larger index (or particles of a smaller
    index for matrix) raises the effective index. *)
Theorem C163_bruggeman_fraction_monotone : forall fsolve fsolve' np nm vf vf' n n',
  mixture np nm vf -> mixture np nm vf' ->
  (forall i, (i < length vf)%nat ->
     0 <= (nth i vf' 0 - nth i vf 0) * (nth i np 0 - nm)) ->
  bruggeman_index fsolve np nm vf n -> bruggeman_index fsolve' np nm vf' n' ->
  n <= n' /\
  ((exists i, (i < length vf)%nat /\
     0 < (nth i vf' 0 - nth i vf 0) * (nth i np 0 - nm)) -> n < n').
Proof.
  intros fs fs' np nm vf vf' n n' M M' HV H H'.
  destruct (mix_root _ _ _ M fs n H) as [P E].
  destruct (mix_root _ _ _ M' fs' n' H') as [P' E'].
  destruct M as (A & B & D & F & L). destruct M' as (A' & B' & D' & F' & L').
  assert (T0 : 0 < n * n) by nra.
  destruct (bg_real_exchange np nm vf vf' (n * n) T0 B A L ltac:(congruence) HV) as [X1 X2].
  assert (S0 : forall w, length np = length w ->
    bg_real (bg_fractions w) (np ++ [nm]) (n * n)
    = bg_real w np (n * n) + (1 - total w) * ((nm * nm - n * n) / (nm * nm + 2 * (n * n)))).
  { intros w Lw. rewrite bg_fractions_eq. apply bg_real_snoc. congruence. }
  pose proof (S0 vf L) as S1. pose proof (S0 vf' L') as S2. rewrite E in S1.
  assert (M' : mixture np nm vf') by (unfold mixture; auto).
  split.
  - apply (mix_compare _ _ _ M' n' n P' P E'). rewrite S2. lra.
  - intros X. apply (mix_compare_strict _ _ _ M' n' n P' P E'). rewrite S2.
    specialize (X2 X). lra.
Qed.
Print Assumptions C163_bruggeman_fraction_monotone.

(** In the dilute limit the two theories agree to first order in the volume
    fraction, and the first-order term is Clausius and Mossotti's. *)
Theorem C163_dilute : forall np nm, 0 < np -> 0 < nm ->
  exists k, 0 <= k /\ forall fsolve phi n g,
    0 <= phi <= 1 ->
    bruggeman_index fsolve [np] nm [phi] n -> garnett_index fsolve np nm phi g ->
    let first := nm ^ 2 * (1 + 3 * phi * ((np ^ 2 - nm ^ 2) / (np ^ 2 + 2 * nm ^ 2))) in
    Rabs (n ^ 2 - first) <= k * phi ^ 2 /\
    Rabs (g ^ 2 - first) <= k * phi ^ 2 /\
    Rabs (n ^ 2 - g ^ 2) <= 2 * k * phi ^ 2.
Proof.
  intros p e Hp He. assert (P : 0 < p * p) by nra. assert (Q : 0 < e * e) by nra.
  destruct (mg_first _ _ P Q) as (k1 & K1 & B1). destruct (bg_first _ _ P Q) as (k2 & K2 & B2).
  exists (Rmax k1 k2). split; [eapply Rle_trans; [exact K1 | apply Rmax_l]|].
  intros fs f n g Hf H G first.
  unfold garnett_index in G. rewrite n_eff_mg_real in G by assumption. injection G as <-.
  pose proof (mg_eps_pos _ _ f P Q Hf) as T0. rewrite (pow2_sqrt (mg_eps _ _ _)) by lra.
  pose proof (one_mixture p e f Hp He Hf) as HM.
  destruct (one_root fs p e f n Hp He Hf H) as [N E].
  pose proof (mix_root _ _ _ HM fs n H) as [_ EM].
  specialize (B1 f Hf).
  assert (BW : Rmin (p * p) (e * e) <= n * n <= Rmax (p * p) (e * e)).
  { pose proof (mix_arithmetic _ _ _ HM n N EM) as A.
    pose proof (mix_harmonic _ _ _ HM n N EM) as A'.
    rewrite one_fractions in A, A'. unfold volume_average in A, A'.
    cbn [app combine map total] in A, A'.
    pose proof (Rmin_l (p * p) (e * e)). pose proof (Rmin_r (p * p) (e * e)).
    pose proof (Rmax_l (p * p) (e * e)). pose proof (Rmax_r (p * p) (e * e)).
    assert (M0 : 0 < Rmin (p * p) (e * e)) by (apply Rmin_glb_lt; lra).
    split; [|nra].
    apply (Rmult_le_reg_r (/ Rmin (p * p) (e * e))); [apply Rinv_0_lt_compat; lra|].
    rewrite Rinv_r by lra. eapply Rle_trans; [exact A'|].
    apply Rmult_le_compat_l; [nra|].
    assert (I1 : 1 / p ^ 2 <= / Rmin (p * p) (e * e)).
    { replace (1 / p ^ 2) with (/ (p * p)) by (field; lra). apply Rinv_le_contravar; lra. }
    assert (I2 : 1 / e ^ 2 <= / Rmin (p * p) (e * e)).
    { replace (1 / e ^ 2) with (/ (e * e)) by (field; lra). apply Rinv_le_contravar; lra. }
    nra. }
  specialize (B2 f (n * n) Hf BW E).
  assert (F0 : 0 <= f ^ 2) by apply pow2_ge_0.
  pose proof (Rmult_le_compat_r _ _ _ F0 (Rmax_l k1 k2)).
  pose proof (Rmult_le_compat_r _ _ _ F0 (Rmax_r k1 k2)).
  assert (C1 : Rabs (n ^ 2 - first) <= Rmax k1 k2 * f ^ 2).
  { replace (n ^ 2 - first)
      with (n * n - e * e - f * (3 * (e * e) * (p * p - e * e) / (p * p + 2 * (e * e))))
      by (unfold first; field; nra). lra. }
  assert (C2 : Rabs (mg_eps (p * p) (e * e) f - first) <= Rmax k1 k2 * f ^ 2).
  { replace (mg_eps (p * p) (e * e) f - first)
      with (mg_eps (p * p) (e * e) f - e * e
            - f * (3 * (e * e) * (p * p - e * e) / (p * p + 2 * (e * e))))
      by (unfold first; field; nra). lra. }
  split; [exact C1|]. split; [exact C2|].
  apply Rabs_le_between in C1. apply Rabs_le_between in C2. apply Rabs_le. lra.
Qed.
Print Assumptions C163_dilute.

(** Non-vacuity: with a root finder that returns the root, every mixture has a
    Bruggeman index; the hypotheses above are met by the polystyrene and air
    of a photonic glass and by a core and a shell in water. *)
Lemma bruggeman_index_exists : forall np nm vf, mixture np nm vf ->
  exists fsolve n, bruggeman_index fsolve np nm vf n.
Proof.
  intros np nm vf (A & B & D & F & L).
  destruct (bg_root_exists vf np nm D F A B L) as (x & Hx & E).
  exists (fun _ => RtoC x), x. split; [|split].
  - unfold n_eff. rewrite map_length, L, Nat.eqb_refl. cbn [negb].
    cbv zeta. unfold RtoC at 1. cbn [snd].
    rewrite (proj2 (Reqb_true 0 0) eq_refl). reflexivity.
  - exact Hx.
  - rewrite bruggeman_sum_bg, <- bg_fractions_eq. exact E.
Qed.

Example C163_glass : exists fsolve n g h,
  bruggeman_index fsolve [1.59] 1 [0.55] n /\
  garnett_index fsolve 1.59 1 0.55 g /\ garnett_index fsolve 1 1.59 (1 - 0.55) h.
Proof.
  destruct (bruggeman_index_exists [1.59] 1 [0.55]) as (fs & n & H).
  { apply one_mixture; lra. }
  exists fs, n. do 2 eexists. split; [exact H|].
  unfold garnett_index. rewrite !n_eff_mg_real by lra. split; reflexivity.
Qed.

Example C163_core_shell :
  mixture [1.45; 1.6] 1.33 [0.2; 0.3] /\ mixture [1.6; 1.33] 1.45 [0.3; 0.5] /\
  Permutation (constituents [1.45; 1.6] 1.33 [0.2; 0.3])
              (constituents [1.6; 1.33] 1.45 [0.3; 0.5]).
Proof.
  unfold mixture, constituents. cbn [total app combine length].
  split; [|split].
  - split; [repeat (apply Forall_cons; [lra|]); apply Forall_nil|]. split; [lra|].
    split; [repeat (apply Forall_cons; [lra|]); apply Forall_nil|]. split; [lra | reflexivity].
  - split; [repeat (apply Forall_cons; [lra|]); apply Forall_nil|]. split; [lra|].
    split; [repeat (apply Forall_cons; [lra|]); apply Forall_nil|]. split; [lra | reflexivity].
  - replace (1 - (0.2 + (0.3 + 0))) with 0.5 by lra.
    replace (1 - (0.3 + (0.5 + 0))) with 0.2 by lra.
    eapply perm_trans; [apply perm_swap|]. apply perm_skip. apply perm_swap.
Qed.
