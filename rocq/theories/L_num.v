(** Lemmas about the numeric prelude. *)
From Coq Require Import Lra Lia Psatz.
From Verif Require Export Num Spec.
Open Scope R_scope.

Lemma Rltb_true x y : Rltb x y = true <-> x < y.
Proof. unfold Rltb; destruct (Rlt_dec x y); split; intros; auto; discriminate. Qed.
Lemma Rltb_false x y : Rltb x y = false <-> y <= x.
Proof. unfold Rltb; destruct (Rlt_dec x y); split; intros; auto; try discriminate; lra. Qed.
Lemma Rleb_true x y : Rleb x y = true <-> x <= y.
Proof. unfold Rleb; destruct (Rle_dec x y); split; intros; auto; discriminate. Qed.
Lemma Rleb_false x y : Rleb x y = false <-> y < x.
Proof. unfold Rleb; destruct (Rle_dec x y); split; intros; auto; try discriminate; lra. Qed.
Lemma Reqb_true x y : Reqb x y = true <-> x = y.
Proof. unfold Reqb; destruct (Req_EM_T x y); split; intros; auto; discriminate. Qed.
Lemma Reqb_false x y : Reqb x y = false <-> x <> y.
Proof. unfold Reqb; destruct (Req_EM_T x y); split; intros; auto; try discriminate; contradiction. Qed.

Lemma Rsum_total l : Rsum l = total l.
Proof. induction l as [|x l IH]; cbn; [reflexivity|]. unfold Rsum in *; cbn; rewrite IH; reflexivity. Qed.

Lemma total_app l m : total (l ++ m) = total l + total m.
Proof. induction l as [|x l IH]; cbn; [lra|]. rewrite IH; lra. Qed.

Lemma total_nonneg l : Forall (fun x => 0 <= x) l -> 0 <= total l.
Proof. induction 1 as [|x l Hx Hl IH]; cbn; lra. Qed.

Lemma total_map_ext {A} (f g : A -> R) l :
  (forall a, In a l -> f a = g a) -> total (map f l) = total (map g l).
Proof.
  induction l as [|a l IH]; cbn; intros H; [reflexivity|].
  rewrite (H a) by auto. rewrite IH by auto. reflexivity.
Qed.

Lemma total_map_plus {A} (f g : A -> R) l :
  total (map (fun a => f a + g a) l) = total (map f l) + total (map g l).
Proof. induction l as [|a l IH]; cbn; [lra|]. rewrite IH; lra. Qed.

Lemma total_map_scale {A} (f : A -> R) c l :
  total (map (fun a => c * f a) l) = c * total (map f l).
Proof. induction l as [|a l IH]; cbn; [lra|]. rewrite IH; lra. Qed.

Lemma total_map_const {A} c (l : list A) :
  total (map (fun _ => c) l) = c * INR (length l).
Proof.
  induction l as [|a l IH]; cbn [map total length]; [cbn; lra|].
  rewrite IH, S_INR; lra.
Qed.

Lemma total_map_le {A} (f g : A -> R) l :
  (forall a, In a l -> f a <= g a) -> total (map f l) <= total (map g l).
Proof.
  induction l as [|a l IH]; cbn; intros H; [lra|].
  pose proof (H a (or_introl eq_refl)).
  assert (total (map f l) <= total (map g l)) by (apply IH; auto). lra.
Qed.

Lemma total_map_nonneg {A} (f : A -> R) l :
  (forall a, In a l -> 0 <= f a) -> 0 <= total (map f l).
Proof.
  intros H; apply total_nonneg, Forall_forall; intros x Hx.
  apply in_map_iff in Hx; destruct Hx as [a [<- Ha]]; auto.
Qed.

Lemma map2_length {A B C} (f : A -> B -> C) l m :
  length (map2 f l m) = Nat.min (length l) (length m).
Proof. revert m; induction l as [|a l IH]; intros [|b m]; cbn; auto. Qed.

Lemma map2_map_r {A B C D} (f : A -> B -> C) (g : D -> B) (h : D -> A) l :
  map2 f (map h l) (map g l) = map (fun d => f (h d) (g d)) l.
Proof. induction l as [|d l IH]; cbn; congruence. Qed.

Lemma Int_part_spec x : IZR (Int_part x) <= x < IZR (Int_part x) + 1.
Proof. pose proof (base_Int_part x); lra. Qed.

Lemma sq_nonneg_pow x : 0 <= x ^ 2.
Proof. nra. Qed.

Lemma asin_increasing x y : -1 <= x -> x < y -> y <= 1 -> asin x < asin y.
Proof.
  intros Hx Hxy Hy. destruct (Rlt_le_dec (asin x) (asin y)) as [H|H]; [exact H|].
  exfalso. pose proof (asin_bound x). pose proof (asin_bound y).
  assert (sin (asin y) <= sin (asin x)) by (apply sin_incr_1; lra).
  rewrite !sin_asin in * by lra. lra.
Qed.

Lemma acos_decreasing x y : -1 <= x -> x < y -> y <= 1 -> acos y < acos x.
Proof.
  intros Hx Hxy Hy. rewrite !acos_asin by lra.
  pose proof (asin_increasing x y). lra.
Qed.

Lemma nth_map_in {A B} (f : A -> B) l i d d' :
  (i < length l)%nat -> nth i (map f l) d' = f (nth i l d).
Proof.
  revert i; induction l as [|a l IH]; intros [|i] H; cbn in *; try lia; auto.
  apply IH; lia.
Qed.
