(** Shared list and option utilities (no model content). *)
From Coq Require Import List Arith ZArith Lia Permutation Bool.
Import ListNotations.

(** Option monad used for C++ partial operations: [None] is an
    undefined-behaviour / error outcome. *)
Definition obind {A B} (o : option A) (f : A -> option B) : option B :=
  match o with Some a => f a | None => None end.
Notation "'do' x <- a ; b" := (obind a (fun x => b))
  (at level 200, x binder, a at level 100, b at level 200, right associativity).

(** In-place write [v[i] = x]; [None] when [i] is out of bounds. *)
Fixpoint upd {A} (l : list A) (i : nat) (x : A) : option (list A) :=
  match l, i with
  | [], _ => None
  | _ :: t, O => Some (x :: t)
  | h :: t, S j => do t' <- upd t j x; Some (h :: t')
  end.

(** In-place write, total version (identity when out of bounds). *)
Fixpoint set {A} (l : list A) (i : nat) (x : A) : list A :=
  match l, i with
  | [], _ => []
  | _ :: t, O => x :: t
  | h :: t, S j => h :: set t j x
  end.

(** [std::swap(v[i], v[j])]; [None] when an index is out of bounds. *)
Definition swap_at {A} (l : list A) (i j : nat) : option (list A) :=
  do a <- nth_error l i;
  do b <- nth_error l j;
  do l1 <- upd l i b;
  upd l1 j a.

Lemma obind_some {A B} (o : option A) (f : A -> option B) b :
  obind o f = Some b -> exists a, o = Some a /\ f a = Some b.
Proof. destruct o; simpl; [eauto | discriminate]. Qed.

Ltac inv_opt :=
  repeat match goal with
  | H : obind _ _ = Some _ |- _ =>
      apply obind_some in H; let a := fresh "x" in destruct H as [a [? ?]]
  | H : Some _ = Some _ |- _ => injection H as H; subst
  | H : None = Some _ |- _ => discriminate H
  end.

Lemma upd_set {A} (l : list A) i x :
  i < length l -> upd l i x = Some (set l i x).
Proof.
  revert i; induction l as [|h t IH]; simpl; intros i Hi; [lia|].
  destruct i; [reflexivity|]. rewrite IH by lia. reflexivity.
Qed.

Lemma upd_some {A} (l : list A) i x l' :
  upd l i x = Some l' -> i < length l /\ l' = set l i x.
Proof.
  revert i l'; induction l as [|h t IH]; simpl; intros i l' H; [discriminate|].
  destruct i.
  - inversion H; subst; split; [lia|reflexivity].
  - inv_opt. destruct (IH _ _ H) as [? ->]. split; [lia|reflexivity].
Qed.

Lemma set_length {A} (l : list A) i x : length (set l i x) = length l.
Proof. revert i; induction l; destruct i; simpl; auto. Qed.

Lemma upd_length {A} (l : list A) i x l' : upd l i x = Some l' -> length l' = length l.
Proof. intros H; apply upd_some in H as [_ ->]; apply set_length. Qed.

Lemma nth_error_set {A} (l : list A) i x k :
  nth_error (set l i x) k =
  if andb (Nat.eqb k i) (Nat.ltb i (length l)) then Some x else nth_error l k.
Proof.
  revert i k; induction l as [|h t IH]; intros i k; simpl.
  - rewrite andb_false_r. destruct k; reflexivity.
  - destruct i, k; simpl; auto.
    rewrite IH. reflexivity.
Qed.

Lemma nth_error_set_eq {A} (l : list A) i x :
  i < length l -> nth_error (set l i x) i = Some x.
Proof.
  intros; rewrite nth_error_set, Nat.eqb_refl.
  apply Nat.ltb_lt in H; rewrite H; reflexivity.
Qed.

Lemma nth_error_set_neq {A} (l : list A) i x k :
  k <> i -> nth_error (set l i x) k = nth_error l k.
Proof.
  intros; rewrite nth_error_set. apply Nat.eqb_neq in H; rewrite H; reflexivity.
Qed.

Lemma nth_set {A} (l : list A) i x k d :
  nth k (set l i x) d =
  if andb (Nat.eqb k i) (Nat.ltb i (length l)) then x else nth k l d.
Proof.
  revert i k; induction l as [|h t IH]; intros i k; simpl.
  - rewrite andb_false_r. destruct i; reflexivity.
  - destruct i, k; simpl; auto.
    rewrite IH. reflexivity.
Qed.

Lemma nth_error_ext {A} (l l' : list A) :
  (forall k, nth_error l k = nth_error l' k) -> l = l'.
Proof.
  revert l'; induction l as [|h t IH]; intros [|h' t'] H.
  - reflexivity.
  - specialize (H 0); discriminate.
  - specialize (H 0); discriminate.
  - f_equal. + specialize (H 0); simpl in H; congruence.
    + apply IH; intros k; apply (H (S k)).
Qed.

Lemma nth_error_lt {A} (l : list A) i x : nth_error l i = Some x -> i < length l.
Proof. intros H; apply nth_error_Some; congruence. Qed.

Lemma nth_error_ge {A} (l : list A) i : length l <= i -> nth_error l i = None.
Proof. apply nth_error_None. Qed.

Lemma nth_error_in_some {A} (l : list A) i : i < length l -> exists x, nth_error l i = Some x.
Proof.
  intros H; destruct (nth_error l i) eqn:E; eauto.
  apply nth_error_None in E; lia.
Qed.

Lemma set_split {A} (l : list A) i x a :
  nth_error l i = Some a ->
  exists l1 l2, l = l1 ++ a :: l2 /\ length l1 = i /\ set l i x = l1 ++ x :: l2.
Proof.
  revert i; induction l as [|h t IH]; intros i H; [destruct i; discriminate|].
  destruct i; simpl in *.
  - inversion H; subst. exists [], t; auto.
  - destruct (IH _ H) as (l1 & l2 & -> & <- & Hs).
    exists (h :: l1), l2; simpl. rewrite Hs; auto.
Qed.

Lemma swap_at_spec {A} (l : list A) i j l' :
  swap_at l i j = Some l' ->
  exists a b, nth_error l i = Some a /\ nth_error l j = Some b /\
              l' = set (set l i b) j a.
Proof.
  unfold swap_at; intros H; inv_opt.
  apply upd_some in H1 as [_ ->]. apply upd_some in H2 as [_ ->]. eauto.
Qed.

Lemma swap_at_total {A} (l : list A) i j :
  i < length l -> j < length l -> exists l', swap_at l i j = Some l'.
Proof.
  intros Hi Hj. unfold swap_at.
  destruct (nth_error_in_some l i Hi) as [a Ha], (nth_error_in_some l j Hj) as [b Hb].
  rewrite Ha, Hb; simpl. rewrite upd_set by auto; simpl.
  rewrite upd_set; [eauto|rewrite set_length; auto].
Qed.

Lemma swap_at_length {A} (l : list A) i j l' :
  swap_at l i j = Some l' -> length l' = length l.
Proof.
  intros H; apply swap_at_spec in H as (a & b & _ & _ & ->); rewrite !set_length; auto.
Qed.

Lemma swap_at_nth_error {A} (l : list A) i j l' :
  swap_at l i j = Some l' ->
  forall k, nth_error l' k =
    if Nat.eqb k j then nth_error l i
    else if Nat.eqb k i then nth_error l j else nth_error l k.
Proof.
  intros H k; apply swap_at_spec in H as (a & b & Ha & Hb & ->).
  pose proof (nth_error_lt _ _ _ Ha). pose proof (nth_error_lt _ _ _ Hb).
  rewrite !nth_error_set, !set_length.
  apply Nat.ltb_lt in H, H0. rewrite H, H0, !andb_true_r, Ha, Hb. reflexivity.
Qed.

Lemma set_same {A} (l : list A) i a : nth_error l i = Some a -> set l i a = l.
Proof.
  intros H. apply nth_error_ext; intros k. rewrite nth_error_set.
  destruct (Nat.eqb_spec k i); simpl; auto. subst.
  pose proof (nth_error_lt _ _ _ H) as Hl. apply Nat.ltb_lt in Hl; rewrite Hl; auto.
Qed.

Lemma Permutation_set_swap {A} (l : list A) i j a b :
  nth_error l i = Some a -> nth_error l j = Some b ->
  Permutation (set (set l i b) j a) l.
Proof.
  intros Ha Hb.
  destruct (Nat.eq_dec i j) as [->|Hne].
  - assert (a = b) by congruence; subst.
    rewrite (set_same l j b Ha). rewrite set_same; auto.
  - destruct (set_split l i b a Ha) as (l1 & l2 & -> & Hl1 & ->).
    assert (Hj : nth_error (l1 ++ b :: l2) j = Some b).
    { destruct (Nat.lt_ge_cases j (length l1)).
      - rewrite nth_error_app1 in * by lia. auto.
      - rewrite nth_error_app2 in * by lia.
        destruct (j - length l1) eqn:E; [lia|]; simpl in *; auto. }
    destruct (set_split _ j a b Hj) as (m1 & m2 & E & Hm1 & ->).
    (* E : l1 ++ b :: l2 = m1 ++ b :: m2, |m1| = j <> i = |l1| *)
    assert (P : Permutation (a :: l1 ++ b :: l2) (b :: m1 ++ a :: m2)).
    { rewrite E. rewrite <- Permutation_middle, <- Permutation_middle. apply perm_swap. }
    rewrite <- Permutation_middle in P. rewrite perm_swap in P.
    apply Permutation_cons_inv in P.
    rewrite <- P. apply Permutation_middle.
Qed.

Lemma swap_at_perm {A} (l : list A) i j l' :
  swap_at l i j = Some l' -> Permutation l' l.
Proof.
  intros H; apply swap_at_spec in H as (a & b & Ha & Hb & ->).
  apply Permutation_set_swap; auto.
Qed.

Lemma firstn_nth_error {A} (l : list A) n k :
  k < n -> nth_error (firstn n l) k = nth_error l k.
Proof.
  revert n k; induction l; intros [|n] [|k] H; simpl; auto; try lia.
  apply IHl; lia.
Qed.

Lemma skipn_nth_error {A} (l : list A) n k :
  nth_error (skipn n l) k = nth_error l (n + k).
Proof.
  revert l; induction n; intros l; simpl; auto.
  destruct l; simpl; auto. destruct k; reflexivity.
Qed.

Lemma nth_error_map' {A B} (f : A -> B) l k :
  nth_error (map f l) k = option_map f (nth_error l k).
Proof. revert k; induction l; destruct k; simpl; auto. Qed.

Lemma nth_error_seq' s n k : k < n -> nth_error (seq s n) k = Some (s + k).
Proof.
  revert s k; induction n; intros s k H; [lia|].
  destruct k; simpl; [f_equal; lia|]. rewrite IHn by lia. f_equal; lia.
Qed.

(** A list whose every index is below [length] and duplicate-free lists *)
Lemma NoDup_nth_error_inj {A} (l : list A) i j x :
  NoDup l -> nth_error l i = Some x -> nth_error l j = Some x -> i = j.
Proof.
  intros Hn Hi Hj. eapply NoDup_nth_error; eauto.
  - apply nth_error_lt in Hi; auto.
  - congruence.
Qed.

Lemma NoDup_incl_perm {A} (l l' : list A) :
  NoDup l -> NoDup l' -> incl l l' -> length l' <= length l -> Permutation l l'.
Proof.
  intros. apply NoDup_Permutation; auto.
  intros x; split; intros Hx; [apply H1; auto|].
  eapply NoDup_length_incl; eauto.
Qed.
