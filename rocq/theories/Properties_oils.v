(** C144: the index oils at the sodium D line. *)
From Coq Require Import Lra Lia Psatz String.
From Verif Require Import Spec L_num M_refractive_index Spec_optics L_cargille Properties_refractive_index.
Open Scope R_scope.

(** The index printed on the bottle of each oil, in units of 10^-4, at the
    sodium D line (589.3 nm); the manufacturer's series are AAA 1.300-1.395 and
    E 1.500-1.640 in steps of 0.005, AA 1.400-1.458, A 1.460-1.640 and
    B 1.642-1.700 in steps of 0.002, and acrylic is 1.4917. *)
Definition label (s : string) (i : Z) : Z :=
  (if String.eqb s "AAA" then 13000 + 50 * i else if String.eqb s "AA" then 14000 + 20 * i
   else if String.eqb s "A" then 14600 + 20 * i else if String.eqb s "B" then 16420 + 20 * i
   else if String.eqb s "E" then 15000 + 50 * i else 14917)%Z.
Definition D_line : R := 0.5893.

(** value minus label, times 10^7 * 5893^4 *)
Definition dev3 (c d e lab : Z) : Z := (c * 5893 ^ 4 + d * 10 ^ 6 * 5893 ^ 2 + e * 10 ^ 7 - lab * 10 ^ 3 * 5893 ^ 4)%Z.
Definition oil3 (c d e : list Z) (s : string) (i : nat) : Z :=
  dev3 (nth i c 0%Z) (nth i d 0%Z) (nth i e 0%Z) (label s (Z.of_nat i)).
Definition oil2 (c d : list Z) (s : string) (i : nat) : Z :=
  dev3 (nth i c 0%Z) (nth i d 0%Z) 0%Z (label s (Z.of_nat i)).
Lemma dev3_real c d e lab :
  cauchy3 (IZR c / 10 ^ 7) (IZR d / 10 ^ 9) (IZR e / 10 ^ 16) D_line - IZR lab / 10 ^ 4 = IZR (dev3 c d e lab) / (10 ^ 7 * 5893 ^ 4).
Proof.
  unfold cauchy3, dev3, D_line. rewrite minus_IZR, !plus_IZR, !mult_IZR.
  replace (0.5893) with (5893 / 10 ^ 4) by lra.
  replace (IZR (5893 ^ 4)) with (5893 ^ 4) by (exact (pow_IZR 5893 4)).
  replace (IZR (5893 ^ 2)) with (5893 ^ 2) by (exact (pow_IZR 5893 2)).
  replace (IZR (10 ^ 6)) with (10 ^ 6) by (exact (pow_IZR 10 6)).
  replace (IZR (10 ^ 7)) with (10 ^ 7) by (exact (pow_IZR 10 7)).
  replace (IZR (10 ^ 3)) with (10 ^ 3) by (exact (pow_IZR 10 3)).
  field.
Qed.

Definition check (p : string -> Z -> Z -> bool) : bool :=
  forallb (fun st => let '(s, (c, d, e)) := st in
    forallb (fun i => p s (oil3 c d e s i) (oil2 c d s i)) (seq 0 (length c))) oil_tables.
Lemma check_spec p s c d e i : check p = true -> dict_get s oil_tables = Ok (c, d, e) -> (0 <= i < Z.of_nat (length c))%Z ->
  p s (oil3 c d e s (Z.to_nat i)) (oil2 c d s (Z.to_nat i)) = true.
Proof.
  intros H E Hi. unfold check in H. rewrite forallb_forall in H.
  assert (Hin : In (s, (c, d, e)) oil_tables).
  { clear H. revert E. induction oil_tables as [|[k v] l IH]; cbn [dict_get]; [discriminate|].
    destruct (String.eqb s k) eqn:Ek.
    - intros [= ->]. apply String.eqb_eq in Ek. subst k. now left.
    - intros E. right. now apply IH. }
  specialize (H _ Hin). cbv beta iota in H. rewrite forallb_forall in H. apply H. apply in_seq. lia.
Qed.
Lemma scaled_bound n lo hi : (lo * 5893 ^ 4 <= n <= hi * 5893 ^ 4)%Z -> IZR lo / 10 ^ 7 <= IZR n / (10 ^ 7 * 5893 ^ 4) <= IZR hi / 10 ^ 7.
Proof.
  intros [H1 H2]. apply IZR_le in H1, H2. rewrite mult_IZR in H1, H2.
  replace (IZR (5893 ^ 4)) with (5893 ^ 4) in * by (exact (pow_IZR 5893 4)).
  assert (H0 : 0 < 5893 ^ 4) by (apply pow_lt; lra). revert H0 H1 H2. generalize (5893 ^ 4). intros D HD H1 H2.
  split; apply (Rmult_le_reg_r (10 ^ 7 * D)); try (apply Rmult_lt_0_compat; lra).
  - replace (IZR n / (10 ^ 7 * D) * (10 ^ 7 * D)) with (IZR n) by (field; lra). replace (IZR lo / 10 ^ 7 * (10 ^ 7 * D)) with (IZR lo * D) by field. exact H1.
  - replace (IZR n / (10 ^ 7 * D) * (10 ^ 7 * D)) with (IZR n) by (field; lra). replace (IZR hi / 10 ^ 7 * (10 ^ 7 * D)) with (IZR hi * D) by field. exact H2.
Qed.
Definition within (lo hi n : Z) : bool := ((lo * 5893 ^ 4 <=? n) && (n <=? hi * 5893 ^ 4))%Z.
Lemma within_bound lo hi n : within lo hi n = true -> IZR lo / 10 ^ 7 <= IZR n / (10 ^ 7 * 5893 ^ 4) <= IZR hi / 10 ^ 7.
Proof. intros H. unfold within in H. apply andb_prop in H as [A B]. apply Z.leb_le in A, B. apply (scaled_bound n lo hi). split; assumption. Qed.
(** deviations of the returned value from the label, in units of 10^-7 *)
Definition short (s : string) : Z * Z :=
  if String.eqb s "AAA" then (-2000, 2500)%Z else if String.eqb s "AA" then (-3000, 4000)%Z
  else if String.eqb s "A" then (-67000, -3000)%Z else if String.eqb s "B" then (-92000, -63000)%Z
  else if String.eqb s "E" then (-97500, -26000)%Z else (0, 600)%Z.
Lemma tables_three : check (fun _ n3 _ => within (-500) 500 n3) = true.
Proof. vm_compute. reflexivity. Qed.
Lemma tables_two : check (fun s _ n2 => within (fst (short s)) (snd (short s)) n2) = true.
Proof. vm_compute. reflexivity. Qed.

(** The coefficient tables are those of the oils: the three-term formula gives
    every oil's labelled index at the D line, to within 5e-5. *)
Theorem C144_tables_match_labels : forall s c d e i,
  dict_get s oil_tables = Ok (c, d, e) -> (0 <= i < Z.of_nat (length c))%Z ->
  Rabs (cauchy3 (IZR (nth (Z.to_nat i) c 0%Z) / 10 ^ 7) (IZR (nth (Z.to_nat i) d 0%Z) / 10 ^ 9)
                (IZR (nth (Z.to_nat i) e 0%Z) / 10 ^ 16) D_line - IZR (label s i) / 10 ^ 4) <= 5e-5.
Proof.
  intros s c d e i E Hi. pose proof (check_spec _ s c d e i tables_three E Hi) as H. cbv beta in H. apply within_bound in H.
  unfold oil3 in H. rewrite Z2Nat.id in H by lia. rewrite <- dev3_real in H. apply Rabs_le. lra.
Qed.
Print Assumptions C144_tables_match_labels.

(** What the function returns at the D line, where the third term is dropped:
    within 4e-4 of the label for series AAA and AA and acrylic, and within 1e-2
    for all; *)
Theorem C144_returned_near_label_partial : forall s n i,
  oil_count s = Some n -> (0 <= i < n)%Z ->
  exists v, n_cargille i s D_line = Ok v /\ Rabs (v - IZR (label s i) / 10 ^ 4) <= 1e-2 /\
    (In s ["AAA"; "AA"; "acrylic"]%string -> Rabs (v - IZR (label s i) / 10 ^ 4) <= 4e-4).
Proof.
  intros s n i Hn Hi. pose proof (oil_count_table s) as T. rewrite Hn in T. destruct T as (c & d & e & T1 & T2). subst n.
  eexists. split; [exact (C54_cargille_two_terms_partial s c d e i D_line T1 Hi)|].
  pose proof (check_spec _ s c d e i tables_two T1 Hi) as H. cbv beta in H. apply within_bound in H.
  unfold oil2 in H. rewrite Z2Nat.id in H by lia. rewrite <- dev3_real in H. replace (0 / 10 ^ 16) with 0 in H by lra.
  set (v := cauchy3 _ _ _ _) in *.
  assert (Hs : (-97500 <= fst (short s) /\ snd (short s) <= 4000)%Z).
  { unfold short. repeat destruct (String.eqb s _); cbn [fst snd]; lia. }
  destruct Hs as [A B]. apply IZR_le in A, B. split.
  - apply Rabs_le. lra.
  - intros Hin. assert (A' : (-4000 <= fst (short s))%Z) by (destruct Hin as [<- | [<- | [<- | []]]]; vm_compute; discriminate).
    apply IZR_le in A'. apply Rabs_le. lra.
Qed.
Print Assumptions C144_returned_near_label_partial.

(** ... so the property fails: every oil of series B comes out at least 0.006
    below its label, every oil of series E at least 0.0026, of series A 0.0003. *)
Theorem C144_labels_refuted : forall s n i, oil_count s = Some n -> (0 <= i < n)%Z -> In s ["A"; "B"; "E"]%string ->
  exists v, n_cargille i s D_line = Ok v /\
    v <= IZR (label s i) / 10 ^ 4 - (if String.eqb s "B" then 6e-3 else if String.eqb s "E" then 26e-4 else 3e-4).
Proof.
  intros s n i Hn Hi Hs. pose proof (oil_count_table s) as T. rewrite Hn in T. destruct T as (c & d & e & T1 & T2). subst n.
  eexists. split; [exact (C54_cargille_two_terms_partial s c d e i D_line T1 Hi)|].
  pose proof (check_spec _ s c d e i tables_two T1 Hi) as H. cbv beta in H. apply within_bound in H.
  unfold oil2 in H. rewrite Z2Nat.id in H by lia. rewrite <- dev3_real in H. replace (0 / 10 ^ 16) with 0 in H by lra.
  set (v := cauchy3 _ _ _ _) in *. revert H.
  destruct Hs as [<- | [<- | [<- | []]]]; unfold short; cbn [String.eqb Ascii.eqb Bool.eqb fst snd]; intros H; lra.
Qed.
Print Assumptions C144_labels_refuted.

Example C144_meets : exists c d e, dict_get "E" oil_tables = Ok (c, d, e) /\ (0 <= 28 < Z.of_nat (length c))%Z /\ oil_count "E" = Some 29%Z /\ label "E" 28 = 16400%Z.
Proof. do 3 eexists. split; [reflexivity|]. split; [cbn; lia|]. split; reflexivity. Qed.
