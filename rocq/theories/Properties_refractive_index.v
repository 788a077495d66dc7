(** Refractive indices: C51-C55 and C67-C70. *)
From Coq Require Import Lra Lia Psatz.
From Coquelicot Require Import Rcomplements.
From Verif Require Import Spec L_num M_refractive_index Spec_optics L_interp
  L_effindex L_bruggeman L_dispersion L_cargille L_material.
Open Scope R_scope.

(** C51: for one real inclusion, Maxwell-Garnett returns a real index between
    the constituents, ... *)
Theorem C51_maxwell_garnett_between : forall fsolve n_particle n_matrix phi,
  0 < n_particle -> 0 < n_matrix -> 0 <= phi <= 1 ->
  exists n, n_eff fsolve true [RtoC n_particle] [RtoC n_matrix] [phi] = Ok (RtoC n) /\
            between n_particle n_matrix n.
Proof.
  intros fs a b phi Ha Hb Hp. eexists. split; [apply n_eff_mg_real; assumption|].
  apply mg_real_between; assumption.
Qed.
Print Assumptions C51_maxwell_garnett_between.

(** ... the matrix index at volume fraction 0, the particle index at 1, ... *)
Theorem C51_maxwell_garnett_ends : forall fsolve n_particle n_matrix,
  0 < n_particle -> 0 < n_matrix ->
  n_eff fsolve true [RtoC n_particle] [RtoC n_matrix] [0] = Ok (RtoC n_matrix) /\
  n_eff fsolve true [RtoC n_particle] [RtoC n_matrix] [1] = Ok (RtoC n_particle).
Proof.
  intros fs a b Ha Hb. rewrite !n_eff_mg_real by lra.
  rewrite mg_eps_0, mg_eps_1 by nra. rewrite !sqrt_square by lra. auto.
Qed.
Print Assumptions C51_maxwell_garnett_ends.

(** ... strictly monotone in the volume fraction, rising when the particle has
    the larger index and falling when it has the smaller one, ... *)
Theorem C51_maxwell_garnett_monotone : forall fsolve n_particle n_matrix p q,
  0 < n_particle -> 0 < n_matrix -> 0 <= p -> p < q -> q <= 1 ->
  exists np nq,
    n_eff fsolve true [RtoC n_particle] [RtoC n_matrix] [p] = Ok (RtoC np) /\
    n_eff fsolve true [RtoC n_particle] [RtoC n_matrix] [q] = Ok (RtoC nq) /\
    (n_matrix < n_particle -> np < nq) /\
    (n_particle < n_matrix -> nq < np) /\
    (n_particle = n_matrix -> np = n_matrix /\ nq = n_matrix).
Proof.
  intros fs a b p q Ha Hb H0 H1 H2. rewrite !n_eff_mg_real by lra.
  do 2 eexists. split; [reflexivity|]. split; [reflexivity|].
  assert (0 < a * a) by nra. assert (0 < b * b) by nra.
  split; [|split]; intros K.
  - apply sqrt_lt_1_alt. split; [left; apply mg_eps_pos; lra|].
    apply mg_eps_incr; nra.
  - apply sqrt_lt_1_alt. split; [left; apply mg_eps_pos; lra|].
    apply mg_eps_decr; nra.
  - subst b. rewrite !mg_eps_same by assumption. rewrite sqrt_square by lra. auto.
Qed.
Print Assumptions C51_maxwell_garnett_monotone.

(** ... and it solves the Maxwell-Garnett (Clausius-Mossotti) relation
    (n^2 - nm^2)/(n^2 + 2 nm^2) = phi (ni^2 - nm^2)/(ni^2 + 2 nm^2). *)
Theorem C51_maxwell_garnett_relation : forall fsolve n_particle n_matrix phi,
  0 < n_particle -> 0 < n_matrix -> 0 <= phi <= 1 ->
  exists n, n_eff fsolve true [RtoC n_particle] [RtoC n_matrix] [phi] = Ok (RtoC n) /\
    0 < n /\
    (n ^ 2 - n_matrix ^ 2) / (n ^ 2 + 2 * n_matrix ^ 2)
    = phi * ((n_particle ^ 2 - n_matrix ^ 2) / (n_particle ^ 2 + 2 * n_matrix ^ 2)).
Proof.
  intros fs a b phi Ha Hb Hp. eexists. split; [apply n_eff_mg_real; assumption|].
  assert (A : 0 < a * a) by nra. assert (B : 0 < b * b) by nra.
  pose proof (mg_eps_pos _ _ phi A B Hp) as P.
  pose proof (mg_eps_relation _ _ phi A B Hp) as R0.
  split; [apply sqrt_lt_R0; assumption|].
  rewrite pow2_sqrt by lra.
  set (e := mg_eps (a * a) (b * b) phi) in *.
  apply (Rmult_eq_reg_r ((e + 2 * b ^ 2) * (a ^ 2 + 2 * b ^ 2))).
  2:{ assert (0 < (e + 2 * b ^ 2) * (a ^ 2 + 2 * b ^ 2)) by (apply Rmult_lt_0_compat; nra). lra. }
  replace ((e - b ^ 2) / (e + 2 * b ^ 2) * ((e + 2 * b ^ 2) * (a ^ 2 + 2 * b ^ 2)))
    with ((e - b ^ 2) * (a ^ 2 + 2 * b ^ 2)) by (field; nra).
  replace (phi * ((a ^ 2 - b ^ 2) / (a ^ 2 + 2 * b ^ 2)) *
           ((e + 2 * b ^ 2) * (a ^ 2 + 2 * b ^ 2)))
    with (phi * (a ^ 2 - b ^ 2) * (e + 2 * b ^ 2)) by (field; nra).
  cbn [pow]. rewrite !Rmult_1_r. lra.
Qed.
Print Assumptions C51_maxwell_garnett_relation.

(** C52: whatever root with positive real part the solver returns for real
    constituents, n_eff returns it, it is real, and it lies between the
    smallest and the largest index of the constituents present (volume
    fraction not zero). *)
Theorem C52_bruggeman_between : forall fsolve np nm vf r lo hi,
  Forall (fun n => 0 < n) np -> 0 < nm ->
  Forall (fun f => 0 <= f) vf -> total vf <= 1 ->
  (forall i, (i < length np)%nat -> 0 < nth i vf 0 -> lo <= nth i np 0 <= hi) ->
  (total vf < 1 -> lo <= nm <= hi) ->
  n_eff fsolve false (map RtoC np) [RtoC nm] vf = Ok r ->
  bruggeman (combine (vf ++ [1 - total vf]) (map RtoC (np ++ [nm]))) r ->
  0 < fst r ->
  snd r = 0 /\ lo <= fst r <= hi.
Proof.
  intros fs np nm vf r lo hi Hn Hm Hf Ht HB HM HR Hroot Hr.
  destruct (n_eff_bg_real fs np nm vf r HR) as (L & _).
  apply bruggeman_sum_bg in Hroot. rewrite <- bg_fractions_eq in Hroot.
  split; [exact (bg_root_real vf np nm Hf Ht Hn Hm L r Hr Hroot)|].
  apply (bg_root_between vf np nm Hf Ht Hn Hm L r lo hi Hr Hroot).
  intros i Hi. rewrite app_length in Hi; cbn in Hi. rewrite bg_fractions_eq.
  destruct (Nat.eq_dec i (length np)) as [->|N].
  - rewrite (app_nth2 vf), (app_nth2 np) by lia.
    rewrite L, Nat.sub_diag. cbn [nth].
    intros H. apply HM. lra.
  - rewrite !app_nth1 by lia. apply HB. lia.
Qed.
Print Assumptions C52_bruggeman_between.

(** The equation has exactly one root with positive real part. *)
Theorem C52_bruggeman_root_exists_unique : forall np nm vf,
  Forall (fun n => 0 < n) np -> 0 < nm ->
  Forall (fun f => 0 <= f) vf -> total vf <= 1 -> length np = length vf ->
  exists x, 0 < x /\
    forall z, 0 < fst z ->
      (bruggeman (combine (vf ++ [1 - total vf]) (map RtoC (np ++ [nm]))) z
       <-> z = RtoC x).
Proof.
  intros np nm vf Hn Hm Hf Ht L.
  destruct (bg_root_exists vf np nm Hf Ht Hn Hm L) as (x & Hx & E).
  exists x. split; [assumption|]. intros z Hz.
  rewrite bruggeman_sum_bg, <- bg_fractions_eq. split.
  - intros H. apply (bg_root_unique vf np nm Hf Ht Hn Hm L); cbn; assumption.
  - intros ->. exact E.
Qed.
Print Assumptions C52_bruggeman_root_exists_unique.

(** What the solver is given is that equation: with a solver that finds the
    root with positive real part, n_eff returns the unique one. *)
Theorem C52_bruggeman_equation : forall fsolve np nm vf r,
  n_eff fsolve false np [nm] vf = Ok r ->
  exists residual, r = fsolve residual /\
    forall z, residual z = RtoC 0 <->
              bruggeman (combine (vf ++ [1 - total vf]) (np ++ [nm])) z.
Proof.
  intros fs np nm vf r H.
  exists (sum_bg (bg_fractions vf) (bg_indices np nm)). split.
  - unfold n_eff in H. destruct (negb _); [discriminate|]. cbv zeta in H.
    set (z := fs _) in *. destruct (Reqb (snd z) 0) eqn:E0.
    + apply Reqb_true in E0. injection H as <-. apply C_eq; cbn; congruence.
    + destruct (Rltb (snd z) 0); [discriminate|]. congruence.
  - intros z. rewrite bruggeman_sum_bg, <- bg_fractions_eq. reflexivity.
Qed.
Print Assumptions C52_bruggeman_equation.

(** C53: ValueError for several inclusions with Maxwell-Garnett, for different
    numbers of indices and fractions, and for a solution with gain. *)
Theorem C53_maxwell_garnett_one_inclusion : forall fsolve np nm vf r,
  n_eff fsolve true np nm vf = Ok r ->
  length np = 1%nat /\ length nm = 1%nat /\ length vf = 1%nat.
Proof.
  intros fs np nm vf r. unfold n_eff.
  destruct (negb _); [discriminate|].
  destruct np as [|a [|? ?]]; [discriminate | | discriminate].
  destruct nm as [|b [|? ?]]; [discriminate | | discriminate].
  destruct vf as [|f [|? ?]]; [discriminate | | discriminate]. auto.
Qed.
Print Assumptions C53_maxwell_garnett_one_inclusion.

Theorem C53_errors_are_value_errors : forall fsolve mg np nm vf e,
  n_eff fsolve mg np nm vf = Err e -> e = ValueError.
Proof.
  intros fs mg np nm vf e. unfold n_eff.
  destruct mg.
  - destruct (negb _); [congruence|].
    destruct np as [|a [|? ?]]; [congruence | | congruence].
    destruct nm as [|b [|? ?]]; [congruence | | congruence].
    destruct vf as [|f [|? ?]]; [congruence | | congruence].
    cbv zeta. destruct (Reqb _ 0); discriminate.
  - destruct (negb _); [congruence|].
    destruct nm as [|b [|? ?]]; [congruence | | congruence].
    cbv zeta. destruct (Reqb _ 0); [discriminate|]. destruct (Rltb _ 0); congruence.
Qed.
Print Assumptions C53_errors_are_value_errors.

Theorem C53_bruggeman_lengths : forall fsolve np nm vf,
  length np <> length vf -> n_eff fsolve false np nm vf = Err ValueError.
Proof.
  intros fs np nm vf H. unfold n_eff.
  rewrite (proj2 (Nat.eqb_neq _ _) H). reflexivity.
Qed.
Print Assumptions C53_bruggeman_lengths.

Theorem C53_no_gain : forall fsolve np nm vf r,
  n_eff fsolve false np nm vf = Ok r -> 0 <= snd r.
Proof.
  intros fs np nm vf r. unfold n_eff.
  destruct (negb _); [discriminate|].
  destruct nm as [|b [|? ?]]; [discriminate | | discriminate].
  cbv zeta. set (z := fs _). destruct (Reqb (snd z) 0).
  - intros H; injection H as <-. cbn. lra.
  - destruct (Rltb (snd z) 0) eqn:E; [discriminate|]. apply Rltb_false in E.
    intros H; injection H as <-. exact E.
Qed.
Print Assumptions C53_no_gain.

(** No entry is dropped: a result is only returned when every particle index
    has its volume fraction (the equation solved, C52_bruggeman_equation, then
    has one term per index). *)
Theorem C53_nothing_truncated : forall fsolve np nm vf r,
  n_eff fsolve false np nm vf = Ok r -> length np = length vf /\ length nm = 1%nat.
Proof.
  intros fs np nm vf r. unfold n_eff.
  destruct (Nat.eqb (length np) (length vf)) eqn:E; cbn [negb]; [|discriminate].
  apply Nat.eqb_eq in E.
  destruct nm as [|b [|? ?]]; [discriminate | | discriminate]. auto.
Qed.
Print Assumptions C53_nothing_truncated.

(** C54, what holds: the first two terms of the table's Cauchy formula. *)
Theorem C54_cargille_two_terms_partial : forall s c d e i w,
  dict_get s oil_tables = Ok (c, d, e) ->
  (0 <= i < Z.of_nat (length c))%Z ->
  n_cargille i s w = Ok (cauchy3 (IZR (nth (Z.to_nat i) c 0%Z) / 10 ^ 7)
                                 (IZR (nth (Z.to_nat i) d 0%Z) / 10 ^ 9) 0 w).
Proof.
  intros s c d e i w H Hi. rewrite (cargille_value s c d e i w H Hi).
  unfold cauchy3. f_equal. unfold Rdiv. ring.
Qed.
Print Assumptions C54_cargille_two_terms_partial.

(** C54 as stated is false: for every oil and every wavelength the third term
    is missing (line 421 is a statement of its own). *)
Theorem C54_cargille_three_terms_refuted : forall s c d e i w,
  dict_get s oil_tables = Ok (c, d, e) ->
  (0 <= i < Z.of_nat (length c))%Z -> 0 < w ->
  exists v, n_cargille i s w = Ok v /\
    v <> cauchy3 (IZR (nth (Z.to_nat i) c 0%Z) / 10 ^ 7)
                 (IZR (nth (Z.to_nat i) d 0%Z) / 10 ^ 9)
                 (IZR (nth (Z.to_nat i) e 0%Z) / 10 ^ 16) w.
Proof. exact cargille_misses_term. Qed.
Print Assumptions C54_cargille_three_terms_refuted.

(** The number of oils in each series. *)
Open Scope string_scope.
Definition oil_count (s : string) : option Z :=
  if String.eqb s "AAA" then Some 20%Z else if String.eqb s "AA" then Some 30%Z
  else if String.eqb s "A" then Some 91%Z else if String.eqb s "B" then Some 30%Z
  else if String.eqb s "E" then Some 29%Z else if String.eqb s "acrylic" then Some 1%Z
  else None.
Close Scope string_scope.

Lemma oil_count_table : forall s,
  match oil_count s with
  | Some n => exists c d e, dict_get s oil_tables = Ok (c, d, e) /\ Z.of_nat (length c) = n
  | None => dict_get s oil_tables = Err KeyError end.
Proof.
  intros s. unfold oil_count, oil_tables. cbn [dict_get].
  destruct (String.eqb s "AAA"); [do 3 eexists; split; reflexivity|].
  destruct (String.eqb s "AA"); [do 3 eexists; split; reflexivity|].
  destruct (String.eqb s "A"); [do 3 eexists; split; reflexivity|].
  destruct (String.eqb s "B"); [do 3 eexists; split; reflexivity|].
  destruct (String.eqb s "E"); [do 3 eexists; split; reflexivity|].
  destruct (String.eqb s "acrylic"); [do 3 eexists; split; reflexivity|].
  reflexivity.
Qed.

(** Unknown series and cardinal numbers beyond the table raise ValueError;
    every valid cardinal number has a value. *)
Theorem C54_cargille_domain : forall s i w,
  (forall n, oil_count s = Some n -> (i < - n \/ n <= i)%Z) ->
  n_cargille i s w = Err ValueError.
Proof.
  intros s i w H. apply cargille_out. intros c d e E.
  pose proof (oil_count_table s) as T. destruct (oil_count s) as [n|].
  - destruct T as (c' & d' & e' & T1 & T2). rewrite T1 in E. injection E as -> -> ->.
    rewrite T2. apply H. reflexivity.
  - rewrite T in E. discriminate.
Qed.
Print Assumptions C54_cargille_domain.

Theorem C54_cargille_valid : forall s n i w,
  oil_count s = Some n -> (0 <= i < n)%Z -> exists v, n_cargille i s w = Ok v.
Proof.
  intros s n i w H Hi. pose proof (oil_count_table s) as T. rewrite H in T.
  destruct T as (c & d & e & T1 & T2).
  eexists. apply (cargille_value s c d e i w T1). lia.
Qed.
Print Assumptions C54_cargille_valid.

(** ... but a negative cardinal number silently selects another oil: the
    ValueError promised outside the table is not raised. *)
Theorem C54_cargille_negative_refuted : forall s n i w,
  oil_count s = Some n -> (- n <= i < 0)%Z ->
  exists v, n_cargille i s w = Ok v /\ n_cargille (i + n) s w = Ok v.
Proof.
  intros s n i w H Hi. pose proof (oil_count_table s) as T. rewrite H in T.
  destruct T as (c & d & e & T1 & T2). subst n.
  rewrite (cargille_negative s c d e i w T1 Hi).
  rewrite (cargille_value s c d e (i + Z.of_nat (length c)) w T1) by lia.
  eexists; split; reflexivity.
Qed.
Print Assumptions C54_cargille_negative_refuted.

(** C55: known materials give their dispersion formula, ... *)
Theorem C55_known_material : forall m f w id wd,
  In (m, f) n_dict -> n_material m w id wd = Ok (f w).
Proof. exact n_known. Qed.
Print Assumptions C55_known_material.

(** ... any other name raises KeyError, ... *)
Theorem C55_unknown_material : forall m w id wd,
  ~ In m ["data"; "water"; "polystyrene"; "pmma"; "rutile"; "fused silica";
          "soda lime glass"; "zirconia"; "ethanol"; "vacuum"; "brookite";
          "anatase"]%string ->
  n_material m w id wd = Err KeyError.
Proof.
  intros m w id wd H. apply n_unknown.
  - intros ->. apply H. left. reflexivity.
  - intros K. apply H. right. exact K.
Qed.
Print Assumptions C55_unknown_material.

(** ... and so does 'data' without data; ... *)
Theorem C55_data_missing : forall w id wd, id = None \/ wd = None ->
  n_material "data" w id wd = Err KeyError.
Proof. exact n_data_missing. Qed.
Print Assumptions C55_data_missing.

(** ... with data, the result is on the chord between the neighbouring data
    points, at the wavelength rounded to a hundredth of the data's unit. *)
Theorem C55_data_interpolates_rounded_partial : forall xs ys unit w i,
  length ys = length xs -> increasing (combine xs ys) ->
  (S i < length xs)%nat ->
  nth i xs 0 <= round2 (w / unit) <= nth (S i) xs 0 ->
  Rabs (round2 (w / unit) - w / unit) <= 0.005 /\
  exists v, n_material "data" w (Some ys) (Some (xs, unit)) = Ok (Some v) /\
    v = chord (nth i xs 0, nth i ys 0) (nth (S i) xs 0, nth (S i) ys 0)
              (round2 (w / unit)) /\
    between (nth i ys 0) (nth (S i) ys 0) v.
Proof.
  intros xs ys unit w i L Hinc Hi Hr. split; [apply round2_err|].
  eexists. split; [apply (n_data_value xs ys unit w i); assumption|]. split; [reflexivity|].
  assert (LC : length (combine xs ys) = length xs) by (rewrite combine_length; lia).
  pose proof (Hinc i ltac:(lia)) as K.
  rewrite !combine_nth in K by lia. cbn [fst] in K.
  exact (chord_between (nth i xs 0, nth i ys 0) (nth (S i) xs 0, nth (S i) ys 0) _ K Hr).
Qed.
Print Assumptions C55_data_interpolates_rounded_partial.

(** At a data point that is a whole number of hundredths the datum itself is
    returned. *)
Theorem C55_data_exact_at_hundredths : forall xs ys unit w i k,
  length ys = length xs -> (2 <= length xs)%nat -> increasing (combine xs ys) ->
  (i < length xs)%nat -> nth i xs 0 = IZR k / 100 -> w / unit = nth i xs 0 ->
  n_material "data" w (Some ys) (Some (xs, unit)) = Ok (Some (nth i ys 0)).
Proof.
  intros xs ys unit w i k L H2 Hinc Hi Hk Hw. unfold n_material.
  rewrite (String.eqb_refl "data"), (proj2 (Nat.eqb_eq _ _) L).
  assert (LC : length (combine xs ys) = length xs) by (rewrite combine_length; lia).
  rewrite Hw, Hk, round2_hundredth, <- Hk.
  replace (nth i xs 0) with (fst (nth i (combine xs ys) (0, 0)))
    by (rewrite combine_nth by lia; reflexivity).
  rewrite interp_linear_table by (try assumption; lia).
  rewrite combine_nth by lia. reflexivity.
Qed.
Print Assumptions C55_data_exact_at_hundredths.

(** C67: constituents without gain give an effective index without gain,
    Maxwell-Garnett: *)
Theorem C67_maxwell_garnett_passive : forall fsolve ni nm phi,
  passive ni -> passive nm -> 0 <= phi <= 1 ->
  exists n, n_eff fsolve true [ni] [nm] [phi] = Ok n /\ 0 <= fst n /\ 0 <= snd n.
Proof.
  intros fs ni nm phi [A1 A2] [B1 B2] Hp.
  destruct (mg_formula_passive ni nm phi A1 A2 B1 B2 Hp) as [C1 C2].
  unfold n_eff. cbn [length Nat.eqb negb]. cbv zeta.
  destruct (Reqb (snd (mg_formula ni nm phi)) 0) eqn:E.
  - eexists. split; [reflexivity|]. cbn [fst snd RtoC]. split; [exact C1 | lra].
  - eexists. split; [reflexivity|]. auto.
Qed.
Print Assumptions C67_maxwell_garnett_passive.

(** ... Bruggeman: a root without gain has a loss tangent between those of the
    constituents present. *)
Theorem C67_bruggeman_loss_between : forall fsolve np nm vf r,
  Forall passive np -> passive nm ->
  Forall (fun f => 0 <= f) vf -> total vf <= 1 ->
  n_eff fsolve false np [nm] vf = Ok r ->
  bruggeman (combine (vf ++ [1 - total vf]) (np ++ [nm])) r ->
  0 < fst r ->
  let constituent n f := exists i, (i < S (length np))%nat /\
    nth i (np ++ [nm]) (RtoC 0) = n /\ nth i (vf ++ [1 - total vf]) 0 = f in
  (exists n f, constituent n f /\ 0 < f /\ loss_le r n) /\
  (exists n f, constituent n f /\ 0 < f /\ loss_le n r).
Proof.
  intros fs np nm vf r Hn Hm Hf Ht HR Hroot Hr.
  destruct (C53_nothing_truncated _ _ _ _ _ HR) as [L _].
  pose proof (C53_no_gain _ _ _ _ _ HR) as G.
  apply bruggeman_sum_bg in Hroot.
  assert (HN : Forall (fun n => upper (Csq n)) (np ++ [nm])).
  { apply Forall_app. split.
    - eapply Forall_impl; [|exact Hn]. intros a [P1 P2]. apply passive_sq; assumption.
    - constructor; [|constructor]. destruct Hm as [P1 P2]. apply passive_sq; assumption. }
  destruct (sum_bg_phase (vf ++ [1 - total vf]) (np ++ [nm]) r) as [P Q].
  - apply passive_sq; assumption.
  - exact HN.
  - rewrite <- bg_fractions_eq. apply bg_fractions_nonneg; assumption.
  - rewrite !app_length. cbn. lia.
  - rewrite <- bg_fractions_eq, bg_fractions_total. lra.
  - rewrite Hroot. reflexivity.
  - rewrite app_length in P, Q. cbn [length] in P, Q. cbv zeta. split.
    + destruct P as (i & Hi & Hp & Hv). unfold im_conj, Csq in Hv.
      do 2 eexists. split; [exists i; split; [lia|]; split; reflexivity|].
      split; [assumption|]. unfold loss_le. lra.
    + destruct Q as (i & Hi & Hp & Hv). unfold im_conj, Csq in Hv.
      do 2 eexists. split; [exists i; split; [lia|]; split; reflexivity|].
      split; [assumption|]. unfold loss_le. lra.
Qed.
Print Assumptions C67_bruggeman_loss_between.

(** C68: on the visible range every built-in material has a real index between
    1 and 3.2 (no pole, no NaN), ... *)
Theorem C68_index_in_visible : forall m w id wd, In m (map fst n_dict) -> visible w ->
  exists v, n_material m w id wd = Ok (Some v) /\ 1 <= v <= 3.2.
Proof.
  intros m w id wd H Hw. apply in_map_iff in H. destruct H as ([m' f] & <- & H).
  destruct (n_dict_good _ _ H) as [S _]. destruct (S w Hw) as (v & E & B).
  exists v. cbn [fst]. rewrite (n_known m' f w id wd H), E. auto.
Qed.
Print Assumptions C68_index_in_visible.

(** ... which falls strictly with the wavelength (normal dispersion) for all of
    them but vacuum, whose index is 1. *)
Theorem C68_normal_dispersion : forall m w w' id wd v v',
  In m (map fst n_dict) -> m <> "vacuum"%string ->
  visible w -> visible w' -> w < w' ->
  n_material m w id wd = Ok (Some v) -> n_material m w' id wd = Ok (Some v') ->
  v' < v.
Proof.
  intros m w w' id wd v v' H NV Hw Hw' Hlt E E'.
  apply in_map_iff in H. destruct H as ([m' f] & <- & H). cbn [fst] in *.
  destruct (n_dict_good _ _ H) as [_ D]. specialize (D NV).
  rewrite (n_known m' f w id wd H) in E. rewrite (n_known m' f w' id wd H) in E'. injection E as E. injection E' as E'.
  apply (D w w' v v' Hw Hw' Hlt E E').
Qed.
Print Assumptions C68_normal_dispersion.

Theorem C68_vacuum_is_one : forall w id wd, w <> 0 ->
  n_material "vacuum" w id wd = Ok (Some 1).
Proof.
  intros w id wd H. rewrite (n_known "vacuum" n_vacuum).
  - rewrite vacuum_one by assumption. reflexivity.
  - unfold n_dict. do 8 right. left. reflexivity.
Qed.
Print Assumptions C68_vacuum_is_one.

(** C125: the three constant indices (colloidal silica, keratin, PtBMA) are
    functions of their own, the same at every wavelength, in this order; n()
    does not know them by name. *)
Theorem C125_constant_indices : forall w w' id wd,
  n_silica_colloidal w = 140 / 100 /\ n_ptbma w = 146 / 100 /\ n_keratin w = 1532 / 1000
  /\ 1 < n_silica_colloidal w < n_ptbma w' /\ n_ptbma w < n_keratin w' < 2
  /\ (forall m, In m ["silica colloidal"; "silica_colloidal"; "keratin"; "ptbma"]%string ->
      n_material m w id wd = Err KeyError).
Proof.
  intros w w' id wd. unfold n_silica_colloidal, n_ptbma, n_keratin. repeat (split; [lra|]).
  intros m [<-|[<-|[<-|[<-|[]]]]]; reflexivity.
Qed.
Print Assumptions C125_constant_indices.

(** C69: within a series the oils are ordered by cardinal number over the
    whole visible range, and each has normal dispersion. *)
Theorem C69_oils_ordered : forall s n i j w,
  oil_count s = Some n -> (0 <= i)%Z -> (i < j)%Z -> (j < n)%Z -> 0.4 <= w <= 0.8 ->
  exists v v', n_cargille i s w = Ok v /\ n_cargille j s w = Ok v' /\ v < v'.
Proof.
  intros s n i j w H Hi Hij Hj Hw. pose proof (oil_count_table s) as T. rewrite H in T.
  destruct T as (c & d & e & T1 & T2). subst n.
  apply (cargille_ordered s c d e i j w T1); assumption.
Qed.
Print Assumptions C69_oils_ordered.

Theorem C69_oil_dispersion : forall s n i w w',
  oil_count s = Some n -> (0 <= i < n)%Z -> 0 < w -> w < w' ->
  exists v v', n_cargille i s w = Ok v /\ n_cargille i s w' = Ok v' /\ 0 < v' < v.
Proof.
  intros s n i w w' H Hi Hw Hww. pose proof (oil_count_table s) as T. rewrite H in T.
  destruct T as (c & d & e & T1 & T2). subst n.
  apply (cargille_decr s c d e i w w' T1); assumption.
Qed.
Print Assumptions C69_oil_dispersion.

(** C70 is false: n('data', ...) is not the interpolant at the wavelength asked
    for, because the wavelength is rounded to two decimals in the unit of the
    data (0.504 um is looked up as 0.50 um), ... *)
Theorem C70_data_at_requested_wavelength_refuted : exists xs ys w v,
  increasing (combine xs ys) /\ nth 0 xs 0 <= w <= nth 1 xs 0 /\
  n_material "data" w (Some ys) (Some (xs, 1)) = Ok (Some v) /\
  v <> chord (nth 0 xs 0, nth 0 ys 0) (nth 1 xs 0, nth 1 ys 0) w.
Proof. exact n_data_rounds. Qed.
Print Assumptions C70_data_at_requested_wavelength_refuted.

(** ... and a wavelength inside the data, even a tabulated one, can raise
    ValueError. *)
Theorem C70_data_in_range_accepted_refuted : exists xs ys w,
  increasing (combine xs ys) /\ nth 0 xs 0 <= w <= nth 1 xs 0 /\
  length ys = length xs /\
  n_material "data" w (Some ys) (Some (xs, 1)) = Err ValueError.
Proof. exact n_data_rejects. Qed.
Print Assumptions C70_data_in_range_accepted_refuted.

(** ** The hypotheses are met by ordinary cases. *)

(** Polystyrene-like spheres at 50% in water: a number strictly in between. *)
Example C51_example : exists n,
  n_eff (fun _ => RtoC 0) true [RtoC 1.6] [RtoC 1.33] [0.5] = Ok (RtoC n) /\ 1.33 < n < 1.6.
Proof.
  eexists. split; [apply n_eff_mg_real; lra|].
  pose proof (mg_eps_incr (1.6 * 1.6) (1.33 * 1.33) 0 0.5 ltac:(lra) ltac:(lra) ltac:(lra) ltac:(lra)) as L.
  pose proof (mg_eps_incr (1.6 * 1.6) (1.33 * 1.33) 0.5 1 ltac:(lra) ltac:(lra) ltac:(lra) ltac:(lra)) as H.
  rewrite mg_eps_0 in L by lra. rewrite mg_eps_1 in H by lra. split.
  - apply Rle_lt_trans with (sqrt (1.33 * 1.33)); [rewrite sqrt_square; lra|].
    apply sqrt_lt_1_alt. lra.
  - apply Rlt_le_trans with (sqrt (1.6 * 1.6)); [|rewrite sqrt_square; lra].
    apply sqrt_lt_1_alt. lra.
Qed.

(** Equal constituents: the Bruggeman root is their index. *)
Example C52_example :
  bruggeman (combine ([0.3; 0.2] ++ [1 - total [0.3; 0.2]]) (map RtoC ([1.5; 1.5] ++ [1.5])))
            (RtoC 1.5).
Proof.
  apply bruggeman_sum_bg. rewrite (sum_bg_real _ [1.5; 1.5; 1.5] (RtoC 1.5) (1.5 * 1.5)).
  - cbn [bg_real app]. f_equal. unfold Rminus. rewrite !Rplus_opp_r. unfold Rdiv.
    rewrite !Rmult_0_r, !Rmult_0_l. ring.
  - lra.
  - apply Csq_R.
  - repeat (constructor; [lra|]). constructor.
Qed.

Example C54_example : n_cargille 1 "A" 0.5 = Ok (14496970 / 10 ^ 7 + 4139930 / 10 ^ 9 / 0.5 ^ 2).
Proof.
  rewrite (cargille_value "A" oil_c_A oil_d_A oil_e_A 1 0.5 eq_refl) by (cbn; lia).
  reflexivity.
Qed.

Example C55_example : increasing (combine [0.4; 0.6] [1.5; 1.7]) /\
  n_material "data" 0.5 (Some [1.5; 1.7]) (Some ([0.4; 0.6], 1)) = Ok (Some (1.5 + 0.1)).
Proof.
  assert (I : increasing (combine [0.4; 0.6] [1.5; 1.7]))
    by (intros [|[|i]] Hi; cbn in *; try lra; lia).
  split; [exact I|].
  assert (R5 : round2 (0.5 / 1) = 0.5).
  { rewrite (round2_unique _ 50); [lra|]. apply Rabs_def1; lra. }
  rewrite (n_data_value [0.4; 0.6] [1.5; 1.7] 1 0.5 0); [ | reflexivity | exact I | cbn; lia | ].
  - rewrite R5. do 2 f_equal. unfold chord; cbn [nth fst snd]. lra.
  - rewrite R5. cbn [nth]. lra.
Qed.

Example C67_example : passive (1.33, 0) /\ passive (0.5, 3) /\ loss_le (1.33, 0) (0.5, 3).
Proof. unfold passive, loss_le, Cmult; cbn [fst snd]. repeat split; lra. Qed.

Example C68_example : In "water"%string (map fst n_dict) /\ visible 0.55.
Proof. split; [left; reflexivity | unfold visible; lra]. Qed.
