(** Lemmas about calc_diam_list (M_phase_func_sphere). *)
From Coq Require Import Permutation Sorted.
From Verif Require Import Num L_num Spec_bulk L_bulk L_montecarlo2 L_trapezoid L_reflection Spec_bulk.
From Coq Require Import Lra Lia.
Open Scope R_scope.

Lemma Ok_inj {A} (x y : A) : Ok x = Ok y -> x = y.
Proof. intros H. now injection H. Qed.

(** ** argmin *)
Lemma Rmin_from_le : forall l m, Rmin_from m l <= m /\ Forall (fun x => Rmin_from m l <= x) l.
Proof.
  induction l as [|x l IH]; intros m; cbn [Rmin_from]; [split; [lra|constructor]|].
  destruct (IH (Rmin m x)) as [H1 H2]. pose proof (Rmin_l m x). pose proof (Rmin_r m x).
  split; [lra|]. constructor; [lra|exact H2].
Qed.
Lemma Rmin_from_in : forall l m, Rmin_from m l = m \/ In (Rmin_from m l) l.
Proof.
  induction l as [|x l IH]; intros m; cbn [Rmin_from]; [now left|].
  destruct (IH (Rmin m x)) as [H|H]; [|right; now right].
  rewrite H. unfold Rmin. destruct (Rle_dec m x); [now left|right; now left].
Qed.
Lemma index_eq_spec m : forall l, In m l -> (index_eq m l < length l)%nat /\ nth (index_eq m l) l 0 = m.
Proof.
  induction l as [|x l IH]; intros H; [contradiction|]. cbn [index_eq].
  destruct (Reqb x m) eqn:E.
  - apply Reqb_true in E. split; [cbn; lia|exact E].
  - destruct H as [H|H]; [apply Reqb_false in E; contradiction|].
    destruct (IH H) as [H1 H2]. split; [cbn; lia|exact H2].
Qed.
Lemma Rargmin_spec l : l <> [] ->
  exists i, Rargmin l = Ok i /\ (i < length l)%nat /\ forall j, (j < length l)%nat -> nth i l 0 <= nth j l 0.
Proof.
  destruct l as [|x t]; [contradiction|]. intros _.
  assert (Hin : In (Rmin_from x t) (x :: t)).
  { destruct (Rmin_from_in t x) as [H|H]; [left; now symmetry|now right]. }
  destruct (index_eq_spec _ _ Hin) as [H1 H2].
  exists (index_eq (Rmin_from x t) (x :: t)). split; [reflexivity|]. split; [exact H1|].
  intros j Hj. rewrite H2. destruct (Rmin_from_le t x) as [A B].
  destruct j as [|j]; [exact A|]. rewrite Forall_forall in B. apply (B (nth j t 0)). apply nth_In. cbn in Hj. lia.
Qed.
Lemma Rargmax_spec l : l <> [] ->
  exists i, Rargmax l = Ok i /\ (i < length l)%nat /\ forall j, (j < length l)%nat -> nth j l 0 <= nth i l 0.
Proof.
  intros Hl. unfold Rargmax. destruct (Rargmin_spec (map Ropp l)) as (i & E & Hi & Hm).
  { destruct l; [contradiction|discriminate]. }
  exists i. split; [exact E|]. rewrite map_length in *. split; [exact Hi|].
  intros j Hj. specialize (Hm j Hj). rewrite !(nth_map_in _ _ _ 0) in Hm by assumption. lra.
Qed.

(** ** sorting *)
Lemma insert_perm x : forall l, Permutation (x :: l) (insert x l).
Proof.
  induction l as [|y l IH]; cbn [insert]; [reflexivity|]. destruct (Rleb x y); [reflexivity|].
  rewrite perm_swap. now constructor.
Qed.
Lemma sort_perm : forall l, Permutation l (sort l).
Proof.
  induction l as [|x l IH]; [constructor|]. cbn [sort fold_right]. rewrite <- insert_perm. now constructor.
Qed.
Lemma insert_sorted x : forall l, StronglySorted Rle l -> StronglySorted Rle (insert x l).
Proof.
  induction l as [|y l IH]; intros H; cbn [insert]; [constructor; constructor|].
  inversion H; subst. destruct (Rleb x y) eqn:E.
  - apply Rleb_true in E. constructor; [exact H|]. constructor; [exact E|].
    eapply Forall_impl; [|exact H3]. cbn. intros; lra.
  - apply Rleb_false in E. constructor; [now apply IH|].
    apply Forall_forall. intros z Hz. apply (Permutation_in _ (Permutation_sym (insert_perm x l))) in Hz.
    destruct Hz as [<-|Hz]; [lra|]. rewrite Forall_forall in H3. auto.
Qed.
Lemma sort_sorted : forall l, StronglySorted Rle (sort l).
Proof. induction l as [|x l IH]; [constructor|]. cbn [sort fold_right]. now apply insert_sorted. Qed.
Lemma sorted_ascending : forall l, StronglySorted Rle l -> ascending l.
Proof.
  induction l as [|x l IH]; intros H i j Hij Hj; [cbn in Hj; lia|]. inversion H; subst.
  destruct j as [|j]; [assert (i = 0)%nat by lia; subst; lra|].
  destruct i as [|i].
  - rewrite Forall_forall in H3. apply (H3 (nth j l 0)), nth_In. cbn in Hj. lia.
  - change (nth i l 0 <= nth j l 0). apply IH; [exact H2|lia|cbn in Hj; lia].
Qed.
Lemma ascending_map_double l : ascending l -> ascending (map (fun r => 2 * r) l).
Proof.
  intros H i j Hij Hj. rewrite map_length in Hj. rewrite !(nth_map_in _ _ _ 0) by lia.
  specialize (H i j Hij Hj). lra.
Qed.

(** ** the loop *)
Definition lower (npts : nat) (r : R) (rad : list R) : Prop := In r (firstn (npts / 2) rad).
Lemma nth_error_in_bounds (l : list R) i : (i < length l)%nat -> nth_error l i = Some (nth i l 0).
Proof. intros H. now apply nth_error_nth'. Qed.

Lemma pick_pair_ok pdf rad num denom : length pdf = 600%nat -> length rad = 600%nat ->
  exists i j, (i < 300)%nat /\ (300 <= j < 600)%nat
    /\ pick_pair pdf rad 600 num denom = Ok [nth i rad 0; nth j rad 0]
    /\ (forall i', (i' < 300)%nat -> Rabs (nth i pdf 0 - IZR num / IZR denom * Rmax_list pdf)
                                     <= Rabs (nth i' pdf 0 - IZR num / IZR denom * Rmax_list pdf))
    /\ (forall j', (300 <= j' < 600)%nat -> Rabs (nth j pdf 0 - IZR num / IZR denom * Rmax_list pdf)
                                     <= Rabs (nth j' pdf 0 - IZR num / IZR denom * Rmax_list pdf)).
Proof.
  intros Hp Hr. unfold pick_pair. change (600 / 2)%nat with 300%nat.
  set (lev := IZR num / IZR denom * Rmax_list pdf).
  set (d := fun p => Rabs (p - lev)).
  assert (L1 : length (firstn 300 pdf) = 300%nat) by (rewrite firstn_length; lia).
  assert (L2 : length (skipn 300 pdf) = 300%nat) by (rewrite skipn_length; lia).
  destruct (Rargmin_spec (map d (firstn 300 pdf))) as (i & Ei & Hi & Mi).
  { intros E. apply (f_equal (@length R)) in E. rewrite map_length, L1 in E. discriminate. }
  destruct (Rargmin_spec (map d (skipn 300 pdf))) as (j & Ej & Hj & Mj).
  { intros E. apply (f_equal (@length R)) in E. rewrite map_length, L2 in E. discriminate. }
  rewrite map_length in Hi, Hj, Mi, Mj. rewrite L1 in Hi, Mi. rewrite L2 in Hj, Mj.
  exists i, (300 + j)%nat. split; [exact Hi|]. split; [lia|].
  cbv zeta. fold d. rewrite Ei, Ej. cbn [bind].
  rewrite !nth_error_in_bounds by lia. split; [reflexivity|].
  assert (F : forall k, (k < 300)%nat -> nth k (map d (firstn 300 pdf)) 0 = d (nth k pdf 0)).
  { intros k Hk. rewrite (nth_map_in _ _ _ 0) by lia. f_equal.
    rewrite <- (firstn_skipn 300 pdf) at 2. rewrite app_nth1 by lia. reflexivity. }
  assert (G : forall k, (k < 300)%nat -> nth k (map d (skipn 300 pdf)) 0 = d (nth (300 + k) pdf 0)).
  { intros k Hk. rewrite (nth_map_in _ _ _ 0) by lia. f_equal. apply nth_skipn_add. }
  split.
  - intros i' Hi'. specialize (Mi i' Hi'). rewrite !F in Mi by assumption. exact Mi.
  - intros j' Hj'. specialize (Mj (j' - 300)%nat ltac:(lia)). rewrite !G in Mj by lia.
    replace (300 + (j' - 300))%nat with j' in Mj by lia. exact Mj.
Qed.

Lemma pick_loop_ok pdf rad : length pdf = 600%nat -> length rad = 600%nat ->
  forall k num denom, exists l, pick_loop k pdf rad 600 num denom = Ok l /\ length l = (2 * k)%nat /\ incl l rad.
Proof.
  intros Hp Hr. induction k as [|k IH]; intros num denom.
  - exists []. cbn. split; [reflexivity|]. split; [reflexivity|intros x []].
  - destruct (pick_pair_ok pdf rad num denom Hp Hr) as (i & j & Hi & Hj & E & _).
    cbn [pick_loop]. rewrite E. cbn [bind]. destruct (next_level num denom) as [n' d'].
    destruct (IH n' d') as (l & El & Ll & Il). rewrite El. cbn [bind].
    exists ([nth i rad 0; nth j rad 0] ++ l). split; [reflexivity|]. split; [cbn; lia|].
    intros x [<-|[<-|Hx]]; [apply nth_In; lia|apply nth_In; lia|now apply Il].
Qed.

(** The offset 300 with another table size. *)
Lemma pick_pair_small pdf rad npts num denom : length pdf = npts -> length rad = npts ->
  (2 <= npts <= 300)%nat -> pick_pair pdf rad npts num denom = Err IndexError.
Proof.
  intros Hp Hr Hn. unfold pick_pair.
  assert (H2 : (1 <= npts / 2 < npts)%nat).
  { pose proof (Nat.div_lt npts 2 ltac:(lia) ltac:(lia)). pose proof (Nat.div_le_mono 2 npts 2 ltac:(lia) ltac:(lia)) as H'.
    change (2 / 2)%nat with 1%nat in H'. lia. }
  set (h := (npts / 2)%nat) in *.
  set (d := fun p => Rabs (p - IZR num / IZR denom * Rmax_list pdf)).
  destruct (Rargmin_spec (map d (firstn h pdf))) as (i & Ei & Hi & _).
  { intros E. apply (f_equal (@length R)) in E. rewrite map_length, firstn_length in E. change (length (@nil R)) with 0%nat in E. lia. }
  destruct (Rargmin_spec (map d (skipn h pdf))) as (j & Ej & Hj & _).
  { intros E. apply (f_equal (@length R)) in E. rewrite map_length, skipn_length in E. change (length (@nil R)) with 0%nat in E. lia. }
  cbv zeta. fold d. rewrite Ei, Ej. cbn [bind].
  rewrite (proj2 (nth_error_None rad (300 + j))) by lia.
  destruct (nth_error rad i); reflexivity.
Qed.

(** ** np.unique *)
Lemma dedup_spec : forall l, StronglySorted Rle l ->
  (forall x, In x (dedup l) <-> In x l) /\ StronglySorted Rlt (dedup l).
Proof.
  induction l as [|x l IH]; intros H; [split; [tauto|constructor]|].
  inversion H as [|? ? Hl Hx]; subst. destruct (IH Hl) as [I S]. destruct l as [|y t].
  - split; [reflexivity|]. cbn. constructor; constructor.
  - cbn [dedup]. fold (dedup (y :: t)). destruct (Reqb x y) eqn:E.
    + apply Reqb_true in E. subst y. split; [|exact S]. intros z. rewrite I. split; [now right|].
      intros [<-|Hz]; [now left|exact Hz].
    + apply Reqb_false in E. split.
      * intros z. cbn [In]. rewrite I. reflexivity.
      * constructor; [exact S|]. apply Forall_forall. intros z Hz. apply I in Hz.
        inversion Hl as [|? ? Ht Hy]; subst. inversion Hx as [|? ? Hxy _]; subst.
        destruct Hz as [<-|Hz]; [lra|]. rewrite Forall_forall in Hy. specialize (Hy z Hz). lra.
Qed.
Lemma unique_spec l : (forall x, In x (unique l) <-> In x l) /\ StronglySorted Rlt (unique l).
Proof.
  destruct (dedup_spec (sort l) (sort_sorted l)) as [I S]. split; [|exact S].
  intros x. unfold unique. rewrite I. split; apply Permutation_in; [apply Permutation_sym|]; apply sort_perm.
Qed.
Lemma strict_NoDup : forall l, StronglySorted Rlt l -> NoDup l.
Proof.
  induction 1 as [|x l S IH F]; constructor; [|exact IH]. intros Hx. rewrite Forall_forall in F.
  specialize (F x Hx). lra.
Qed.
Lemma strict_weak : forall l, StronglySorted Rlt l -> StronglySorted Rle l.
Proof.
  induction 1 as [|x l S IH F]; constructor; [exact IH|]. eapply Forall_impl; [|exact F]. cbn. intros; lra.
Qed.
Lemma unique_length l m : NoDup m -> (forall x, In x m <-> In x l) -> length (unique l) = length m.
Proof.
  intros N H. destruct (unique_spec l) as [I S]. apply Nat.le_antisymm.
  - apply NoDup_incl_length; [now apply strict_NoDup|]. intros x Hx. now apply H, I.
  - apply NoDup_incl_length; [exact N|]. intros x Hx. now apply I, H.
Qed.

(** ** equally spaced halves *)
Lemma linspace_value a b n x : In x (linspace a b n) <-> exists i, (i < n)%nat /\ x = a + INR i * ((b - a) / INR (n - 1)).
Proof.
  unfold linspace. rewrite in_map_iff. split.
  - intros (i & <- & Hi). apply in_seq in Hi. exists i. split; [lia|reflexivity].
  - intros (i & Hi & ->). exists i. split; [reflexivity|apply in_seq; lia].
Qed.
Lemma linspace_NoDup a b n : a < b -> (2 <= n)%nat -> NoDup (linspace a b n).
Proof.
  intros Hab Hn. unfold linspace. apply FinFun.Injective_map_NoDup; [|apply seq_NoDup].
  intros i j E. apply INR_eq. assert (0 < INR (n - 1)) by (apply (lt_INR 0); lia).
  assert (0 < (b - a) / INR (n - 1)) by (apply Rdiv_lt_0_compat; lra).
  apply (Rmult_eq_reg_r ((b - a) / INR (n - 1))); lra.
Qed.
Lemma linspace_first a b n : (1 <= n)%nat -> nth 0 (linspace a b n) 0 = a.
Proof. intros H. rewrite linspace_nth by lia. cbn. lra. Qed.
Lemma linspace_last a b n : (2 <= n)%nat -> In b (linspace a b n).
Proof.
  intros H. apply linspace_value. exists (n - 1)%nat. split; [lia|]. field.
  apply not_0_INR. lia.
Qed.

Lemma NoDup_two : forall l m : list R, NoDup l -> NoDup m -> (forall x, In x l -> In x m -> False) -> NoDup (l ++ m).
Proof.
  induction l as [|x l IH]; intros m Hl Hm H; [exact Hm|]. inversion Hl; subst. cbn. constructor.
  - rewrite in_app_iff. intros [?|?]; [contradiction|]. apply (H x); [now left|assumption].
  - apply IH; [assumption|exact Hm|]. intros y Hy. apply H. now right.
Qed.

Lemma halves_length rm h : 0 < rm -> (2 <= h)%nat ->
  length (unique (linspace (rm / 100) rm h ++ linspace rm (2 * rm) h)) = (2 * h - 1)%nat.
Proof.
  intros Hr Hh.
  assert (E : linspace rm (2 * rm) h = rm :: tl (linspace rm (2 * rm) h)).
  { pose proof (linspace_length rm (2 * rm) h) as L. pose proof (linspace_first rm (2 * rm) h ltac:(lia)) as F.
    destruct (linspace rm (2 * rm) h) as [|y t]; [cbn in L; lia|]. cbn in F. subst y. reflexivity. }
  pose proof (linspace_NoDup rm (2 * rm) h ltac:(lra) Hh) as N2. rewrite E in N2. inversion N2 as [|? ? Hnin N2']; subst.
  rewrite (unique_length _ (linspace (rm / 100) rm h ++ tl (linspace rm (2 * rm) h))).
  - rewrite app_length, linspace_length.
    pose proof (linspace_length rm (2 * rm) h) as L. rewrite E in L. cbn in L. lia.
  - apply NoDup_two; [apply linspace_NoDup; [lra|exact Hh]|exact N2'|].
    intros x H1 H2. apply linspace_in in H1; [|lra].
    assert (H3 : In x (linspace rm (2 * rm) h)) by (rewrite E; now right).
    apply linspace_in in H3; [|lra]. assert (x = rm) by lra. subst x. contradiction.
  - intros x. rewrite E, !in_app_iff. cbn [In tl]. pose proof (linspace_last (rm / 100) rm h Hh).
    split; [tauto|]. intros [?|[<-|?]]; tauto.
Qed.

Lemma floorZ_between x m : IZR m <= x -> x < IZR m + 1 -> floorZ x = m.
Proof.
  intros H1 H2. unfold floorZ. pose proof (Int_part_spec x) as H.
  assert (A : IZR (Int_part x) < IZR (m + 1)) by (rewrite plus_IZR; lra).
  assert (B : IZR m < IZR (Int_part x + 1)) by (rewrite plus_IZR; lra).
  apply lt_IZR in A. apply lt_IZR in B. lia.
Qed.
Lemma rhe_int k : M_montecarlo.round_half_even (IZR k) = k.
Proof.
  unfold M_montecarlo.round_half_even. rewrite (floorZ_between (IZR k) k) by lra. cbv zeta.
  rewrite (proj2 (Rltb_true _ _)) by lra. reflexivity.
Qed.
Lemma rhe_half k : M_montecarlo.round_half_even (IZR k + 1 / 2) = (if Z.even k then k else k + 1)%Z.
Proof.
  unfold M_montecarlo.round_half_even.
  rewrite (floorZ_between (IZR k + 1 / 2) k) by lra. cbv zeta. rewrite (proj2 (Rltb_false _ _)) by lra. rewrite (proj2 (Rltb_false _ _)) by lra. reflexivity.
Qed.
Lemma half_odd k : Z.to_nat (M_montecarlo.round_half_even ((INR (2 * k + 1) + 1) / 2)) = S k.
Proof.
  replace ((INR (2 * k + 1) + 1) / 2) with (IZR (Z.of_nat (S k))).
  - rewrite rhe_int. apply Nat2Z.id.
  - rewrite <- INR_IZR_INZ, S_INR, plus_INR, mult_INR. cbn. lra.
Qed.
Lemma half_even k : Z.to_nat (M_montecarlo.round_half_even ((INR (2 * k) + 1) / 2))
  = (if Nat.even k then k else S k).
Proof.
  replace ((INR (2 * k) + 1) / 2) with (IZR (Z.of_nat k) + 1 / 2).
  - rewrite rhe_half. replace (Z.even (Z.of_nat k)) with (Nat.even k).
    + destruct (Nat.even k); [apply Nat2Z.id|]. lia.
    + induction k as [|k IH]; [reflexivity|]. rewrite Nat.even_succ, <- Nat.negb_even, IH.
      replace (Z.of_nat (S k)) with (Z.succ (Z.of_nat k)) by lia. rewrite Z.even_succ. now rewrite <- Z.negb_even.
  - rewrite <- INR_IZR_INZ, mult_INR. cbn. lra.
Qed.

(** ** calc_diam_list *)
Lemma Rmax_list_is_max l i : Forall (fun x => 0 < x) l -> (i < length l)%nat ->
  (forall j, (j < length l)%nat -> nth j l 0 <= nth i l 0) -> Rmax_list l = nth i l 0.
Proof.
  intros P Hi M. apply Rle_antisym.
  - assert (G : forall m, Forall (fun x => x <= nth i l 0) m -> Rmax_list m <= nth i l 0).
    { induction m as [|x m IH]; intros F; cbn.
      - rewrite Forall_forall in P. left. apply P. now apply nth_In.
      - inversion F; subst. specialize (IH H2). unfold Rmax_list in IH. apply Rmax_lub; assumption. }
    apply G. apply Forall_forall. intros x Hx. apply (In_nth _ _ 0) in Hx as (j & Hj & <-). now apply M.
  - clear P M. revert i Hi. induction l as [|x l IH]; intros i Hi; [cbn in Hi; lia|].
    destruct i as [|i]; cbn [nth].
    + apply Rmax_l.
    + eapply Rle_trans; [apply IH; cbn in Hi; lia|]. apply Rmax_r.
Qed.

Lemma size_distr_map factorial l mean t : size_distr factorial l mean t = map (size_density factorial mean t) l.
Proof. unfold size_distr, size_density. destruct (Rleb t 100); reflexivity. Qed.

Lemma map_double_half (l : list R) : map (fun r => 2 * r) (map (fun d => d / 2) l) = l.
Proof. rewrite map_map. rewrite <- (map_id l) at 2. apply map_ext. intros. field. Qed.

Lemma diam_list_ok factorial n mean pdi :
  exists l, calc_diam_list factorial n mean pdi false 600 = Ok l
    /\ length l = (2 * (n / 2) + 1)%nat /\ ascending l /\ incl l (linspace 1 (2 * mean) 600)
    /\ (exists d, In d l /\ most_likely (size_density factorial mean ((1 - pdi ^ 2) / pdi ^ 2)) (linspace 1 (2 * mean) 600) d)
    /\ ((2 <= n)%nat -> (forall g, In g (linspace 1 (2 * mean) 600) -> 0 < size_density factorial mean ((1 - pdi ^ 2) / pdi ^ 2) g) ->
        exists d d1 d2, In d1 l /\ In d2 l /\
          let density := size_density factorial mean ((1 - pdi ^ 2) / pdi ^ 2) in
          let grid := linspace 1 (2 * mean) 600 in
          most_likely density grid d /\ nearest_to density (density d / 2) (firstn 300 grid) d1
          /\ nearest_to density (density d / 2) (skipn 300 grid) d2).
Proof.
  unfold calc_diam_list. replace (4 * (mean / 2)) with (2 * mean) by field. replace (2 * (mean / 2)) with mean by field.
  set (t := (1 - pdi ^ 2) / pdi ^ 2). set (grid := linspace 1 (2 * mean) 600).
  assert (Lg : length grid = 600%nat) by apply linspace_length. cbv zeta.
  rewrite size_distr_map. set (f := size_density factorial mean t). set (rad := map (fun d => d / 2) grid).
  set (pdf := map f grid).
  assert (Lp : length pdf = 600%nat) by (unfold pdf; rewrite map_length; exact Lg).
  assert (Lr : length rad = 600%nat) by (unfold rad; rewrite map_length; exact Lg).
  destruct (Rargmax_spec pdf) as (im & Em & Him & Mm).
  { intros E. rewrite E in Lp. discriminate. }
  rewrite Em. cbn [bind].
  destruct (pick_loop_ok pdf rad Lp Lr (n / 2) 1 2) as (l & El & Ll & Il). rewrite El. cbn [bind].
  exists (map (fun r => 2 * r) (sort (nth im rad 0 :: l))). split; [reflexivity|].
  assert (P : Permutation (nth im rad 0 :: l) (sort (nth im rad 0 :: l))) by apply sort_perm.
  assert (NR : forall i, (i < 600)%nat -> 2 * nth i rad 0 = nth i grid 0).
  { intros i Hi. unfold rad. rewrite (nth_map_in _ _ _ 0) by lia. field. }
  assert (NP : forall i, (i < 600)%nat -> nth i pdf 0 = f (nth i grid 0)).
  { intros i Hi. unfold pdf. rewrite (nth_map_in _ _ _ 0) by lia. reflexivity. }
  assert (Hmode : most_likely f grid (nth im grid 0)).
  { split; [apply nth_In; lia|]. intros g Hg. apply (In_nth _ _ 0) in Hg as (j & Hj & <-).
    rewrite <- !NP by lia. apply Mm. lia. }
  split; [|split; [|split; [|split]]].
  - rewrite map_length, <- (Permutation_length P). cbn [length]. rewrite Ll. lia.
  - apply ascending_map_double, sorted_ascending, sort_sorted.
  - intros x Hx. apply in_map_iff in Hx as (r & <- & Hr).
    apply (Permutation_in _ (Permutation_sym P)) in Hr.
    assert (Hr' : In r rad) by (destruct Hr as [<-|Hr]; [apply nth_In; lia|now apply Il]).
    apply (In_nth _ _ 0) in Hr' as (j & Hj & <-). rewrite NR by lia. apply nth_In. lia.
  - exists (nth im grid 0). split; [|exact Hmode].
    apply in_map_iff. exists (nth im rad 0). split; [apply NR; lia|].
    apply (Permutation_in _ P). now left.
  - intros Hn Hpos. exists (nth im grid 0).
    destruct (pick_pair_ok pdf rad 1 2 Lp Lr) as (i & j & Hi & Hj & E & Mi & Mj).
    assert (Hin : In (nth i rad 0) l /\ In (nth j rad 0) l).
    { assert (Hk : (n / 2 = S (n / 2 - 1))%nat).
      { pose proof (Nat.div_le_mono 2 n 2 ltac:(lia) Hn) as H'. change (2 / 2)%nat with 1%nat in H'. lia. }
      rewrite Hk in El. cbn [pick_loop] in El. rewrite E in El. cbn [bind] in El.
      destruct (next_level 1 2) as [n' d']. 
      destruct (pick_loop (n / 2 - 1) pdf rad 600 n' d') as [l'|]; cbn [bind] in El; [|discriminate].
      apply Ok_inj in El. subst l. split; [now left|right; now left]. }
    exists (nth i grid 0), (nth j grid 0).
    assert (T : forall k, (k < 600)%nat -> In (nth k rad 0) l -> In (nth k grid 0) (map (fun r => 2 * r) (sort (nth im rad 0 :: l)))).
    { intros k Hk H. apply in_map_iff. exists (nth k rad 0). split; [now apply NR|]. apply (Permutation_in _ P). now right. }
    split; [apply T; [lia|tauto]|]. split; [apply T; [lia|tauto]|]. cbv zeta.
    split; [exact Hmode|].
    assert (Hmax : IZR 1 / IZR 2 * Rmax_list pdf = f (nth im grid 0) / 2).
    { rewrite (Rmax_list_is_max pdf im); [rewrite NP by lia; lra| |exact Him|exact Mm].
      apply Forall_forall. intros x Hx. apply in_map_iff in Hx as (g & <- & Hg). now apply Hpos. }
    rewrite Hmax in Mi, Mj.
    assert (F1 : forall k, (k < 300)%nat -> nth k (firstn 300 grid) 0 = nth k grid 0).
    { intros k Hk. rewrite <- (firstn_skipn 300 grid) at 2. rewrite app_nth1; [reflexivity|]. rewrite firstn_length. lia. }
    split; split.
    + rewrite <- F1 by lia. apply nth_In. rewrite firstn_length. lia.
    + intros g Hg. apply (In_nth _ _ 0) in Hg as (k & Hk & <-). rewrite firstn_length in Hk.
      rewrite F1 by lia. rewrite <- (NP i), <- (NP k) by lia. apply Mi. lia.
    + replace j with (300 + (j - 300))%nat by lia. rewrite <- nth_skipn_add. apply nth_In. rewrite skipn_length. lia.
    + intros g Hg. apply (In_nth _ _ 0) in Hg as (k & Hk & <-). rewrite skipn_length in Hk.
      rewrite nth_skipn_add. rewrite <- (NP j), <- (NP (300 + k)%nat) by lia. apply Mj. lia.
Qed.

Lemma diam_list_repeats factorial n mean pdi l : (600 <= n)%nat ->
  calc_diam_list factorial n mean pdi false 600 = Ok l -> ~ NoDup l.
Proof.
  intros Hn E N. destruct (diam_list_ok factorial n mean pdi) as (l' & E' & L & _ & I & _).
  rewrite E in E'. apply Ok_inj in E'. subst l'.
  pose proof (NoDup_incl_length N I) as H. rewrite linspace_length, L in H.
  pose proof (Nat.div_le_mono 600 n 2 ltac:(lia) Hn) as H'. change (600 / 2)%nat with 300%nat in H'. lia.
Qed.

Lemma diam_list_small_table factorial n mean pdi npts : (2 <= npts <= 300)%nat -> (2 <= n)%nat ->
  calc_diam_list factorial n mean pdi false npts = Err IndexError.
Proof.
  intros Hp Hn. unfold calc_diam_list. cbv zeta.
  set (grid := linspace 1 (4 * (mean / 2)) npts).
  assert (Lg : length grid = npts) by apply linspace_length.
  set (pdf := size_distr _ grid _ _). set (rad := map (fun d => d / 2) grid).
  assert (Lp : length pdf = npts) by (unfold pdf; rewrite size_distr_length; exact Lg).
  assert (Lr : length rad = npts) by (unfold rad; rewrite map_length; exact Lg).
  destruct (Rargmax_spec pdf) as (im & Em & Him & Mm).
  { intros E. rewrite E in Lp. cbn in Lp. lia. }
  rewrite Em. cbn [bind].
  assert (Hk : (n / 2 = S (n / 2 - 1))%nat).
  { pose proof (Nat.div_le_mono 2 n 2 ltac:(lia) Hn) as H'. change (2 / 2)%nat with 1%nat in H'. lia. }
  rewrite Hk. cbn [pick_loop]. rewrite (pick_pair_small pdf rad npts 1 2 Lp Lr Hp). reflexivity.
Qed.

Lemma diam_list_equal factorial n mean pdi npts l : 0 < mean ->
  calc_diam_list factorial n mean pdi true npts = Ok l ->
  ascending l /\ NoDup l /\ Forall (fun d => mean / 100 <= d <= 2 * mean) l
  /\ length l = (if Nat.eqb n 0 then 0 else if Nat.eqb n 1 then 2
                 else match n mod 4 with 0 => n - 1 | 2 => n + 1 | _ => n end)%nat.
Proof.
  intros Hm. unfold calc_diam_list. cbv zeta. cbn [bind].
  set (h := Z.to_nat _). set (rm := mean / 2). intros E. apply Ok_inj in E. subst l.
  set (m := linspace (rm / 100) rm h ++ linspace rm (2 * rm) h).
  destruct (unique_spec m) as [I Srt].
  assert (Hrm : 0 < rm) by (unfold rm; lra).
  split; [apply ascending_map_double, sorted_ascending, strict_weak, Srt|].
  split.
  { apply FinFun.Injective_map_NoDup; [intros a b; lra|]. now apply strict_NoDup. }
  split.
  { apply Forall_forall. intros x Hx. apply in_map_iff in Hx as (r & <- & Hr). apply I in Hr.
    unfold m in Hr. apply in_app_iff in Hr as [Hr|Hr]; apply linspace_in in Hr; try lra; unfold rm in Hr; lra. }
  rewrite map_length. unfold m.
  destruct (Nat.eqb_spec n 0) as [->|H0].
  { assert (h = 0%nat) as -> by (apply (half_even 0)). reflexivity. }
  destruct (Nat.eqb_spec n 1) as [->|H1].
  { assert (h = 1)%nat as -> by exact (half_odd 0).
    apply (unique_length _ [rm / 100; rm]).
    - constructor; [intros [?|[]]; lra|]. constructor; [intros []|constructor].
    - intros x. cbn -[INR]. replace (rm / 100 + INR 0 * ((rm - rm / 100) / INR 0)) with (rm / 100) by (cbn; lra).
      replace (rm + INR 0 * ((2 * rm - rm) / INR 0)) with rm by (cbn; lra). reflexivity. }
  assert (D : (exists k, (n = 2 * k + 1)%nat) \/ (exists k, (n = 2 * k)%nat)).
  { destruct (Nat.Even_or_Odd n) as [[k Hk]|[k Hk]]; [right|left]; exists k; lia. }
  destruct D as [[k ->]|[k ->]].
  - assert (h = S k) as -> by apply half_odd. rewrite halves_length by (try exact Hrm; lia).
    assert (M : ((2 * k + 1) mod 4 = 1 \/ (2 * k + 1) mod 4 = 3)%nat).
    { pose proof (Nat.mod_upper_bound (2 * k + 1) 4). pose proof (Nat.div_mod (2 * k + 1) 4). lia. }
    destruct M as [-> | ->]; lia.
  - assert (Eh : h = if Nat.even k then k else S k) by apply half_even.
    destruct (Nat.even k) eqn:Ek; rewrite Eh.
    + apply Nat.even_spec in Ek as [j ->]. rewrite halves_length by (try exact Hrm; lia).
      replace (2 * (2 * j))%nat with (j * 4)%nat by lia. rewrite Nat.mod_mul by lia. lia.
    + rewrite <- Nat.negb_odd in Ek. apply negb_false_iff in Ek. apply Nat.odd_spec in Ek as [j ->].
      rewrite halves_length by (try exact Hrm; lia).
      replace (2 * (2 * j + 1))%nat with (2 + j * 4)%nat by lia. rewrite Nat.mod_add by lia.
      change (2 mod 4)%nat with 2%nat. cbv iota. lia.
Qed.
Lemma diam_list_equal_ok factorial n mean pdi npts :
  exists l, calc_diam_list factorial n mean pdi true npts = Ok l.
Proof. unfold calc_diam_list. cbv zeta. cbn [bind]. eexists. reflexivity. Qed.

(** Units: the table starts at the bare number 1. *)
Lemma diam_list_units factorial n mean pdi s l l' : (2 <= n)%nat ->
  0 < mean < 1 / 2 -> 1 / 2 < s * mean ->
  calc_diam_list factorial n mean pdi false 600 = Ok l ->
  calc_diam_list factorial n (s * mean) pdi false 600 = Ok l' ->
  (forall d, In d l -> 2 * mean <= d) /\ l' <> map (fun d => s * d) l.
Proof.
  intros Hn Hm Hs E E'.
  destruct (diam_list_ok factorial n mean pdi) as (m & Em & _ & _ & I & _). rewrite E in Em. apply Ok_inj in Em. subst m.
  assert (B : forall d, In d l -> 2 * mean <= d).
  { intros d Hd. apply I in Hd. apply (linspace_lower 1 (2 * mean) (2 * mean)) in Hd; lra. }
  split; [exact B|]. intros C.
  assert (Hsp : 0 < s) by nra.
  (* some diameter of the second list lies in the lower half of its table *)
  assert (X : exists d, In d l' /\ d < 2 * (s * mean)).
  { clear E B C I. unfold calc_diam_list in E'. cbv zeta in E'.
    set (grid := linspace 1 (4 * (s * mean / 2)) 600) in E'.
    assert (Lg : length grid = 600%nat) by apply linspace_length.
    set (pdf := size_distr _ grid _ _) in E'. set (rad := map (fun d => d / 2) grid) in E'.
    assert (Lp : length pdf = 600%nat) by (unfold pdf; rewrite size_distr_length; exact Lg).
    assert (Lr : length rad = 600%nat) by (unfold rad; rewrite map_length; exact Lg).
    destruct (Rargmax pdf) as [im|]; cbn [bind] in E'; [|discriminate].
    destruct (pick_pair_ok pdf rad 1 2 Lp Lr) as (i & j & Hi & Hj & Ep & _).
    assert (Hk : (n / 2 = S (n / 2 - 1))%nat).
    { pose proof (Nat.div_le_mono 2 n 2 ltac:(lia) Hn) as H'. change (2 / 2)%nat with 1%nat in H'. lia. }
    rewrite Hk in E'. cbn [pick_loop] in E'. rewrite Ep in E'. cbn [bind] in E'.
    destruct (next_level 1 2) as [n' d'].
    destruct (pick_loop (n / 2 - 1) pdf rad 600 n' d') as [l2|]; cbn [bind] in E'; [|discriminate].
    apply Ok_inj in E'. subst l'. exists (2 * nth i rad 0). split.
    - apply in_map_iff. exists (nth i rad 0). split; [reflexivity|].
      apply (Permutation_in _ (sort_perm _)). right. now left.
    - unfold rad. rewrite (nth_map_in _ _ _ 0) by lia. unfold grid. rewrite linspace_nth by lia.
      change (600 - 1)%nat with 599%nat.
      assert (INR i <= 299) by (replace 299 with (INR 299) by (cbn; lra); apply le_INR; lia).
      replace (INR 599) with 599 by (cbn; lra). pose proof (pos_INR i). nra. }
  destruct X as (d & Hd & Hlt). rewrite C in Hd. apply in_map_iff in Hd as (d0 & <- & Hd0).
  specialize (B d0 Hd0). nra.
Qed.
