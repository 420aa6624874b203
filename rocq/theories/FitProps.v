(** C27 and C66: theorems about the fitness classes. *)
From Coq Require Import List Bool Arith Lia Permutation.
From Verif Require Import Outcome Lib OrderSpec OrderLemmas FitModel FitProofs.
Import ListNotations.

(** ** C27 *)
(** eoScalarFitness: the four operators are those of the template comparison, and
    minimising is the converse of maximising *)
Theorem C27_scalar_order :
  forall V (cmp : V -> V -> bool), strict_weak_order cmp ->
  strict_weak_order (s_lt cmp) /\ strict_weak_order (s_gt cmp) /\
  (forall a b, s_gt cmp a b = s_lt (fun x y => cmp y x) a b /\ s_lt cmp a b = s_gt (fun x y => cmp y x) a b) /\
  (forall a b, s_le cmp a b = negb (s_lt cmp b a) /\ s_ge cmp a b = s_le cmp b a) /\
  (forall a b, s_lt cmp a b = true \/ s_lt cmp b a = true \/ (s_le cmp a b = true /\ s_ge cmp a b = true)).
Proof.
  intros V cmp H. split; [exact H|]. split; [exact (swo_flip cmp H)|].
  split; [split; reflexivity|]. split; [split; reflexivity|].
  intros a b. unfold s_le, s_ge, s_gt, s_lt. destruct (cmp a b), (cmp b a); auto.
Qed.
Print Assumptions C27_scalar_order.
(** eoDualFitness: on fitnesses whose feasibility was set, comparing always answers and is
    a strict weak order *)
Theorem C27_dual_order :
  forall V (cmp : V -> V -> bool), strict_weak_order cmp ->
  exists lt : V * bool -> V * bool -> bool, strict_weak_order lt /\
  forall v f w g, let a := dual_of_pair v f in let b := dual_of_pair w g in
    d_lt cmp a b = Ok (lt (v, f) (w, g)) /\ d_gt cmp a b = Ok (lt (w, g) (v, f)) /\
    d_le cmp a b = Ok (negb (lt (w, g) (v, f))) /\ d_ge cmp a b = Ok (negb (lt (v, f) (w, g))).
Proof.
  intros V cmp H. eexists. split; [exact (lt_of_swo cmp H)|]. intros v f w g a b.
  assert (E1 : d_lt cmp a b = Ok (lt_of cmp a b)) by (apply d_lt_ok; reflexivity).
  assert (E2 : d_lt cmp b a = Ok (lt_of cmp b a)) by (apply d_lt_ok; reflexivity).
  unfold d_gt, d_le, d_ge. rewrite E1, E2. repeat split.
Qed.
Print Assumptions C27_dual_order.
(** every feasible fitness is better than every infeasible one, and otherwise the
    comparison is that of the values *)
Theorem C27_dual_feasible_first :
  forall V (cmp : V -> V -> bool) v w,
  d_gt cmp (dual_of_pair v true) (dual_of_pair w false) = Ok true /\
  d_lt cmp (dual_of_pair v true) (dual_of_pair w false) = Ok false /\
  d_lt cmp (dual_of_pair v true) (dual_of_pair w true) = Ok (cmp v w) /\
  d_lt cmp (dual_of_pair v false) (dual_of_pair w false) = Ok (cmp v w).
Proof. repeat split; reflexivity. Qed.
Print Assumptions C27_dual_feasible_first.
(** maximising and minimising dual fitnesses differ in the order of the values only *)
Theorem C27_dual_converse :
  forall V (cmp : V -> V -> bool) v w f,
  d_gt cmp (dual_of_pair v f) (dual_of_pair w f) = d_lt (fun x y => cmp y x) (dual_of_pair v f) (dual_of_pair w f).
Proof. intros V cmp v w []; reflexivity. Qed.
Print Assumptions C27_dual_converse.
(** equality agrees with the order when values do *)
Theorem C27_dual_equal :
  forall V (cmp veq : V -> V -> bool), (forall x y, veq x y = true <-> x = y) ->
  (forall x y, cmp x y = false -> cmp y x = false -> x = y) -> (forall x, cmp x x = false) ->
  forall a b : dual V, initialised a = true -> initialised b = true ->
  (d_eq veq a b = Ok true <-> a = b) /\
  (a = b <-> d_lt cmp a b = Ok false /\ d_lt cmp b a = Ok false).
Proof.
  intros V cmp veq He Ht Hi [v f i] [w g j] Ha Hb. cbn in Ha, Hb. subst i j.
  assert (E : Dual v f true = Dual w g true <-> f = g /\ v = w).
  { split; [intros X; split; congruence|intros [-> ->]; reflexivity]. }
  rewrite E. unfold d_eq, d_lt, is_feasible; cbn [initialised feasible value rbind].
  specialize (He v w). destruct (veq v w) eqn:Ev.
  - assert (v = w) as -> by (apply He; reflexivity). rewrite Hi. destruct f, g; cbn; intuition congruence.
  - assert (v <> w) by (intros X; apply He in X; congruence).
    specialize (Ht v w). destruct f, g; cbn; destruct (cmp v w), (cmp w v); intuition congruence.
Qed.
Print Assumptions C27_dual_equal.
Example C27_ex :
  d_lt Nat.ltb (dual_of_pair 9 false) (dual_of_pair 2 true) = Ok true /\
  d_lt Nat.ltb (dual_of_pair 9 true) (dual_of_pair 2 true) = Ok false /\
  d_lt Nat.ltb (dual_of_scalar 9) (dual_of_pair 2 true) = Throw /\
  (strict_weak_order Nat.ltb) /\ (forall x y, Nat.ltb x y = false -> Nat.ltb y x = false -> x = y) /\
  (forall x y, Nat.eqb x y = true <-> x = y).
Proof.
  repeat (split; [reflexivity|]). split; [exact ltb_nat_swo|]. split; [|exact Nat.eqb_eq].
  intros x y. rewrite !Nat.ltb_ge. lia.
Qed.
(** splitting a population on feasibility *)
Theorem C27_split :
  forall V G (pop : list (G * dual V)) f u, pop_split pop = Ok (f, u) ->
  f = filter (fun x => feasible (snd x)) pop /\ u = filter (fun x => negb (feasible (snd x))) pop /\
  Permutation pop (pop_merge (f, u)) /\
  (forall cmp x y, In x f -> In y u -> d_gt cmp (snd x) (snd y) = Ok true).
Proof.
  intros V G pop f u H. apply split_fold in H as (-> & -> & Hs). cbn [app].
  split; auto. split; auto. split; [apply filter_perm|].
  intros cmp x y Hx Hy. apply filter_In in Hx as [Ix Fx]. apply filter_In in Hy as [Iy Fy].
  rewrite Forall_forall in Hs. unfold d_gt, d_lt, is_feasible. rewrite (Hs _ Ix), (Hs _ Iy). cbn [rbind].
  rewrite Fx. destruct (feasible (snd y)); [discriminate|reflexivity].
Qed.
Print Assumptions C27_split.
Theorem C27_split_answers :
  forall V G (pop : list (G * dual V)), Forall (fun x => initialised (snd x) = true) pop ->
  exists f u, pop_split pop = Ok (f, u).
Proof. intros V G pop H. exact (split_total pop H [] []). Qed.
Print Assumptions C27_split_answers.
Example C27_split_ex :
  pop_split [(1, dual_of_pair 5 true); (2, dual_of_pair 6 false); (3, dual_of_pair 7 true)] =
  Ok ([(1, dual_of_pair 5 true); (3, dual_of_pair 7 true)], [(2, dual_of_pair 6 false)]).
Proof. reflexivity. Qed.

(** ** C66 *)
(** adding up dual fitnesses adds the values, and the sum is feasible exactly when all the
    terms are *)
Theorem C66_dual_sum :
  forall V (op : V -> V -> V) (s : dual V) l, Forall (fun d => initialised d = true) (s :: l) ->
  let r := fold_left (fun a x => snd (d_op op a x)) l s in
  value r = fold_left op (map value l) (value s) /\
  is_feasible r = Ok (forallb (fun x => feasible x) (s :: l)).
Proof.
  intros V op s l H. inversion H as [|? ? Hs Hl]; subst. destruct (sum_spec op l s Hl) as (A & B & C). cbv zeta in *.
  change (fold_left (fun a x => snd (d_op op a x)) l s) with (fold_left (fun a x => d_op_assign op a x) l s).
  split; [exact A|]. unfold is_feasible. replace (initialised _) with true by (symmetry; apply C; auto).
  f_equal. apply eq_true_iff_eq. rewrite B. cbn [forallb]. rewrite andb_true_iff, forallb_forall, Forall_forall. tauto.
Qed.
Print Assumptions C66_dual_sum.
(** the operators between dual fitnesses leave their left operand alone *)
Theorem C66_dual_operand : forall V (op : V -> V -> V) (a b : dual V), fst (d_op op a b) = a.
Proof. reflexivity. Qed.
Print Assumptions C66_dual_operand.
(** those with a scalar do not: [a + v] changes [a] *)
Theorem C97_scalar_operand_refuted :
  exists a : dual nat, fst (d_op_scalar Nat.add a 3) <> a /\
    forall (op : nat -> nat -> nat) a v, fst (d_op_scalar op a v) = snd (d_op_scalar op a v).
Proof. exists (dual_of_pair 1 true). split; [discriminate|reflexivity]. Qed.
Print Assumptions C97_scalar_operand_refuted.
(** the average of a population of dual fitnesses has the right value but never a
    feasibility, whatever the population *)
Theorem C97_average_refuted :
  forall V (add div : V -> V -> V) zero size (pop : list (dual V)),
  value (average add div zero size pop) = div (fold_left add (map value pop) zero) size /\
  is_feasible (average add div zero size pop) = Throw.
Proof. intros. rewrite average_spec. split; reflexivity. Qed.
Print Assumptions C97_average_refuted.
Example C66_dual_ex :
  d_plus Nat.add (dual_of_pair 3 true) (dual_of_pair 4 true) = (dual_of_pair 3 true, dual_of_pair 7 true) /\
  d_plus Nat.add (dual_of_pair 3 true) (dual_of_pair 4 false) = (dual_of_pair 3 true, dual_of_pair 7 false) /\
  d_plus_scalar Nat.add (dual_of_pair 3 true) 4 = (dual_of_pair 7 true, dual_of_pair 7 true) /\
  average Nat.add Nat.div 0 2 [dual_of_pair 3 true; dual_of_pair 5 true] = Dual 4 false false.
Proof. repeat split; reflexivity. Qed.
(** eoScalarFitnessAssembled: the order is a strict weak order on fitnesses with at least
    one term *)
Theorem C66_assembled_order :
  forall V (cmp : V -> V -> bool), strict_weak_order cmp ->
  strict_weak_order (fun a b : V * list V => asm_lt cmp (fst a :: snd a) (fst b :: snd b)) /\
  (forall a b, asm_gt cmp a b = asm_lt cmp b a /\ asm_le cmp a b = negb (asm_lt cmp b a) /\ asm_ge cmp a b = negb (asm_lt cmp a b)).
Proof. intros V cmp H. split; [exact (asm_lt_swo cmp H)|repeat split]. Qed.
Print Assumptions C66_assembled_order.
(** an empty fitness is neither better nor worse than any other, so the order on all of
    them is not a strict weak order *)
Theorem C97_assembled_empty_refuted :
  forall V (cmp : V -> V -> bool) x y, cmp x y = true -> ~ strict_weak_order (asm_lt cmp).
Proof.
  intros V cmp x y H (_ & _ & N). specialize (N [x] [] [y] eq_refl eq_refl). cbn in N. congruence.
Qed.
Print Assumptions C97_assembled_empty_refuted.
(** describing a term: defined exactly for the terms the table already has, and then read
    back; other descriptions are unchanged *)
Theorem C66_describe :
  forall text (unnamed : text) t i d,
  (length t <= i -> set_description text unnamed t i d = UB) /\
  (i < length t -> exists t', set_description text unnamed t i d = Ok t' /\ length t' = length t /\
     get_description text unnamed t' i = d /\
     forall j, j <> i -> get_description text unnamed t' j = get_description text unnamed t j).
Proof.
  intros text unnamed t i d. rewrite set_description_spec. split; intros H.
  - destruct (Nat.ltb_spec i (length t)); [lia|reflexivity].
  - destruct (Nat.ltb_spec i (length t)); [|lia]. eexists. split; [reflexivity|].
    split; [apply set_length|]. unfold get_description. split.
    + rewrite nth_error_set_eq; auto.
    + intros j Hj. rewrite nth_error_set_neq; auto.
Qed.
Print Assumptions C66_describe.
(** appending a term that the table of descriptions does not have yet writes out of its
    bounds *)
Theorem C97_push_refuted :
  forall V text (unnamed : text) t (a : list V) v d, length t <= length a ->
  asm_push text unnamed t a v = UB /\ asm_push_named text unnamed t a v d = UB.
Proof.
  intros V text unnamed t a v d H. unfold asm_push, asm_push_named. rewrite !set_description_spec, !app_length.
  cbn [length]. destruct (Nat.ltb_spec (length t) (length a + 1)); [|lia].
  replace (length a + 1 - 1) with (length a) by lia.
  destruct (Nat.ltb_spec (length a) (length t)); [lia|]. split; reflexivity.
Qed.
Print Assumptions C97_push_refuted.
(** so the very first append of a program, to a default-constructed fitness, is undefined *)
Example C66_push_ex :
  asm_push nat 0 [] (asm_default nat 0 []) 7 = UB /\
  (let (t, a) := asm_make nat [] 2 5 1 in (t, a) = ([1; 1], [5; 5]) /\ asm_push nat 0 t a 7 = UB /\
    asm_assign nat 0 t a 8 = Ok ([1; 1], [8; 5])) /\
  asm_push nat 0 [1; 1; 1] [5; 5] 7 = Ok ([1; 1; 1], [5; 5; 7]).
Proof. repeat split; reflexivity. Qed.
(** otherwise it appends and describes *)
Theorem C66_push :
  forall V text (unnamed : text) t (a : list V) v d, length a < length t ->
  asm_push text unnamed t a v = Ok (t, a ++ [v]) /\
  exists t', asm_push_named text unnamed t a v d = Ok (t', a ++ [v]) /\ length t' = length t /\
    get_description text unnamed t' (length a) = d.
Proof.
  intros V text unnamed t a v d H. unfold asm_push, asm_push_named. rewrite app_length. cbn [length].
  destruct (Nat.ltb_spec (length t) (length a + 1)); [lia|]. split; auto.
  replace (length a + 1 - 1) with (length a) by lia. rewrite set_description_spec.
  destruct (Nat.ltb_spec (length a) (length t)); [|lia]. cbn [rbind]. eexists. split; [reflexivity|].
  split; [apply set_length|]. unfold get_description. rewrite nth_error_set_eq; auto.
Qed.
Print Assumptions C66_push.
