(** Facts about strict weak orders; a concrete sort and nth_element meeting the
    contracts (used for the non-vacuity examples). *)
From Coq Require Import List Arith Permutation Sorted Bool Lia.
From Verif Require Import Lib OrderSpec.
Import ListNotations.

Lemma swo_irrefl {A} (lt : A -> A -> bool) : strict_weak_order lt -> forall a, lt a a = false.
Proof. intros H; apply H. Qed.

Lemma swo_trans {A} (lt : A -> A -> bool) : strict_weak_order lt ->
  forall a b c, lt a b = true -> lt b c = true -> lt a c = true.
Proof. intros H; apply H. Qed.

Lemma swo_ntrans {A} (lt : A -> A -> bool) : strict_weak_order lt ->
  forall a b c, lt a b = false -> lt b c = false -> lt a c = false.
Proof. intros H; apply H. Qed.

Lemma swo_asym {A} (lt : A -> A -> bool) : strict_weak_order lt ->
  forall a b, lt a b = true -> lt b a = false.
Proof.
  intros H a b Hab. destruct (lt b a) eqn:E; auto.
  pose proof (swo_trans lt H _ _ _ Hab E) as F. rewrite (swo_irrefl lt H) in F; discriminate.
Qed.

Lemma swo_flip {A} (lt : A -> A -> bool) :
  strict_weak_order lt -> strict_weak_order (fun a b => lt b a).
Proof. intros (I & T & N); repeat split; intros; eauto. Qed.

Lemma swo_le_lt {A} (lt : A -> A -> bool) : strict_weak_order lt ->
  forall a b c, lt b a = false -> lt b c = true -> lt a c = true.
Proof.
  intros H a b c H1 H2. destruct (lt a c) eqn:E; auto.
  rewrite (swo_ntrans lt H b a c) in H2; auto.
Qed.

Lemma swo_lt_le {A} (lt : A -> A -> bool) : strict_weak_order lt ->
  forall a b c, lt a b = true -> lt c b = false -> lt a c = true.
Proof.
  intros H a b c H1 H2. destruct (lt a c) eqn:E; auto.
  rewrite (swo_ntrans lt H a c b) in H1; auto.
Qed.

Lemma ltb_nat_swo : strict_weak_order Nat.ltb.
Proof.
  repeat split; intros; rewrite ?Nat.ltb_lt, ?Nat.ltb_ge in *; try lia.
Qed.

Lemma swo_preimage {A B} (f : B -> A) (lt : A -> A -> bool) :
  strict_weak_order lt -> strict_weak_order (fun x y => lt (f x) (f y)).
Proof. intros (I & T & N); repeat split; intros; eauto. Qed.

(** lexicographic combination *)
Lemma swo_lex {A} (l1 l2 : A -> A -> bool) :
  strict_weak_order l1 -> strict_weak_order l2 ->
  strict_weak_order (fun a b => if l1 a b then true else if l1 b a then false else l2 a b).
Proof.
  intros H1 H2. pose proof H1 as (I1 & T1 & N1). pose proof H2 as (I2 & T2 & N2).
  split; [|split].
  - intros a. rewrite I1; auto.
  - intros a b c Hab Hbc.
    destruct (l1 a b) eqn:Eab; [|destruct (l1 b a) eqn:Eba; [discriminate|]];
    (destruct (l1 b c) eqn:Ebc; [|destruct (l1 c b) eqn:Ecb; [discriminate|]]).
    + rewrite (T1 _ _ _ Eab Ebc); auto.
    + rewrite (swo_lt_le l1 H1 a b c); auto.
    + rewrite (swo_le_lt l1 H1 a b c); auto.
    + rewrite (N1 _ _ _ Eab Ebc), (N1 _ _ _ Ecb Eba); eauto.
  - intros a b c Hab Hbc.
    destruct (l1 a b) eqn:Eab; [discriminate|].
    destruct (l1 b c) eqn:Ebc; [discriminate|].
    rewrite (N1 _ _ _ Eab Ebc).
    destruct (l1 b a) eqn:Eba.
    + assert (l1 c a = true) as ->; auto.
      apply (swo_le_lt l1 H1 c b a); auto.
    + destruct (l1 c b) eqn:Ecb.
      * assert (l1 c a = true) as ->; auto. apply (swo_lt_le l1 H1 c b a); auto.
      * destruct (l1 c a); eauto.
Qed.

(** A concrete stable insertion sort, ordering by [cmp]. *)
Fixpoint ins {T} (cmp : T -> T -> bool) (x : T) (l : list T) : list T :=
  match l with
  | [] => [x]
  | y :: t => if cmp y x then y :: ins cmp x t else x :: y :: t
  end.
Fixpoint isort {T} (cmp : T -> T -> bool) (l : list T) : list T :=
  match l with [] => [] | x :: t => ins cmp x (isort cmp t) end.

Lemma ins_perm {T} (cmp : T -> T -> bool) x l : Permutation (x :: l) (ins cmp x l).
Proof.
  induction l; simpl; auto. destruct (cmp a x); auto.
  rewrite perm_swap. constructor; auto.
Qed.

Lemma isort_perm {T} (cmp : T -> T -> bool) l : Permutation l (isort cmp l).
Proof.
  induction l; simpl; auto. rewrite <- ins_perm. constructor; auto.
Qed.

Lemma ins_sorted {T} (cmp : T -> T -> bool) x l : strict_weak_order cmp ->
  StronglySorted (fun a b => cmp b a = false) l ->
  StronglySorted (fun a b => cmp b a = false) (ins cmp x l).
Proof.
  intros Hc. induction l as [|y t IH]; simpl; intros H.
  - repeat constructor.
  - inversion H; subst. destruct (cmp y x) eqn:E.
    + constructor; auto.
      rewrite Forall_forall in *. intros z Hz.
      apply (Permutation_in _ (Permutation_sym (ins_perm cmp x t))) in Hz as [->|Hz]; auto.
      apply (swo_asym cmp Hc); auto.
    + constructor; auto. constructor; auto.
      rewrite Forall_forall in *. intros z Hz.
      apply (swo_ntrans cmp Hc z y x); auto.
Qed.

Lemma isort_sorted {T} (cmp : T -> T -> bool) l : strict_weak_order cmp ->
  StronglySorted (fun a b => cmp b a = false) (isort cmp l).
Proof. intros Hc; induction l; simpl; [constructor|apply ins_sorted; auto]. Qed.

Definition the_sort : forall T : Type, (T -> T -> bool) -> list T -> list T :=
  fun T cmp l => isort cmp l.
Definition the_nth : forall T : Type, (T -> T -> bool) -> nat -> list T -> list T :=
  fun T cmp n l => isort cmp l.

Lemma the_sort_ok : std_sort_ok the_sort.
Proof. intros T cmp l Hc; split; [apply isort_perm | apply isort_sorted; auto]. Qed.

Lemma StronglySorted_nth {T} (R : T -> T -> Prop) l i j a b :
  StronglySorted R l -> i < j -> nth_error l i = Some a -> nth_error l j = Some b -> R a b.
Proof.
  intros H; revert i j; induction H as [|x t Ht IH Hx]; intros i j Hij Ha Hb.
  - destruct i; discriminate.
  - destruct j; [lia|]. destruct i; simpl in *.
    + inversion Ha; subst. rewrite Forall_forall in Hx. apply Hx. eapply nth_error_In; eauto.
    + eapply IH; [|eauto|eauto]. lia.
Qed.

Lemma the_nth_ok : std_nth_ok the_nth.
Proof.
  intros T cmp n l Hc Hn; split; [apply isort_perm|].
  intros i j a b Hi Hj Ha Hb.
  destruct (Nat.eq_dec i j) as [->|].
  - assert (a = b) by congruence; subst; apply (swo_irrefl cmp Hc).
  - eapply (StronglySorted_nth (fun a b => cmp b a = false)); [|shelve|eauto|eauto].
    apply isort_sorted; auto.
    Unshelve. lia.
Qed.

(** Consequences of the contracts *)
Lemma StronglySorted_app_inv {T} (R : T -> T -> Prop) l1 l2 :
  StronglySorted R (l1 ++ l2) ->
  StronglySorted R l1 /\ StronglySorted R l2 /\ (forall a b, In a l1 -> In b l2 -> R a b).
Proof.
  induction l1 as [|x t IH]; simpl; intros H.
  - repeat split; auto; [constructor|]. intros a b [].
  - inversion H; subst. destruct (IH H2) as (A1 & A2 & A3).
    rewrite Forall_app in H3. destruct H3 as [F1 F2]. rewrite Forall_forall in F1, F2.
    repeat split; auto.
    + constructor; auto. apply Forall_forall; auto.
    + intros a b [->|Ha] Hb; auto.
Qed.

Lemma In_firstn_nth {A} (l : list A) n x :
  In x (firstn n l) -> exists i, i < n /\ nth_error l i = Some x.
Proof.
  intros H. apply In_nth_error in H as [i Hi].
  assert (i < n). { apply nth_error_lt in Hi. rewrite firstn_length in Hi. lia. }
  rewrite firstn_nth_error in Hi by auto. eauto.
Qed.

Lemma In_skipn_nth {A} (l : list A) n x :
  In x (skipn n l) -> exists j, n <= j /\ nth_error l j = Some x.
Proof.
  intros H. apply In_nth_error in H as [i Hi].
  rewrite skipn_nth_error in Hi. exists (n + i); split; [lia|auto].
Qed.

Lemma sorted_best_n {A} (lt : A -> A -> bool) pop l' n :
  sorted_by (fun a b => lt b a) pop l' -> n <= length pop ->
  best_n lt pop n (firstn n l').
Proof.
  intros [Hp Hs] Hn. pose proof (Permutation_length Hp) as HL. split.
  - rewrite firstn_length; lia.
  - exists (skipn n l'). rewrite firstn_skipn. split; auto.
    rewrite <- (firstn_skipn n l') in Hs.
    apply StronglySorted_app_inv in Hs as (_ & _ & H). simpl in H. auto.
Qed.

Lemma nth_partitioned_best_n {A} (lt : A -> A -> bool) pop l' n :
  nth_partitioned (fun a b => lt b a) n pop l' -> n <= length pop ->
  best_n lt pop n (firstn n l').
Proof.
  intros [Hp Hs] Hn. pose proof (Permutation_length Hp) as HL. split.
  - rewrite firstn_length; lia.
  - exists (skipn n l'). rewrite firstn_skipn. split; auto.
    intros k d Hk Hd. apply In_firstn_nth in Hk as (i & Hi & Ei).
    apply In_skipn_nth in Hd as (j & Hj & Ej).
    apply (Hs i j); auto. lia.
Qed.

Lemma best_n_sub {A} (lt : A -> A -> bool) pop n k : best_n lt pop n k -> sub_population pop k.
Proof. intros [_ (d & Hp & _)]; exists d; auto. Qed.

Lemma best_exists {A} (lt : A -> A -> bool) l : strict_weak_order lt ->
  l <> [] -> exists x, is_best lt l x.
Proof.
  intros Hl. induction l as [|a t IH]; intros H; [congruence|].
  destruct t as [|b t'].
  - exists a; split; simpl; auto. intros y [->|[]]; apply (swo_irrefl lt Hl).
  - destruct IH as (x & Hx & Hb); [congruence|].
    destruct (lt x a) eqn:E.
    + exists a; split; [left; auto|]. intros y [->|Hy]; [apply (swo_irrefl lt Hl)|].
      apply (swo_ntrans lt Hl a x y); auto. apply (swo_asym lt Hl); auto.
    + exists x; split; [right; auto|]. intros y [->|Hy]; auto.
Qed.
