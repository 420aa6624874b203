(** C186, C187: algorithms assembled and evaluated by eoAlgoFoundryEA and eoEvalFoundryEA. *)
From Coq Require Import List Arith Bool ZArith QArith Qround Lia Lqa.
From Verif Require Import Lib Outcome OrderSpec PopModel BreedModel BreedSpec BreedProofs AlgoModel AlgoSpec AlgoProofs FoundModel EvfModel EvfSpec EvfProofs EvfBreed.
Import ListNotations.
Close Scope Q_scope.
Open Scope nat_scope.

(** a small instance: genotypes and fitnesses are numbers, the world counts what was drawn *)
Definition ex_init (w : nat) : res (indiv nat nat * nat) := Ok (Ind w None, S w).
Definition ex_eval (x : indiv nat nat) (w : nat) : res (indiv nat nat * nat) := Ok (Ind (geno x) (Some (geno x * 2)), w).
Definition ex_cross (d : nat) : quad_op (G:=nat) (F:=nat) (W:=nat) := fun x y w => Ok (Ind (geno y + d) (fit x), Ind (geno x + d) (fit y), true, w).
Definition ex_mut (d : nat) : mon_op (G:=nat) (F:=nat) (W:=nat) := fun x w => Ok (Ind (geno x + d) (fit x), true, w).
Definition ex_sel (k : nat) : selector nat nat nat := Selector (fun _ w => Ok w) (fun pop w => let! x := of_opt (nth_error pop k) in Ok (x, w)).
Definition ex_comma : list (indiv nat nat) -> list (indiv nat nat) -> nat -> res (list (indiv nat nat) * nat) := fun _ off w => Ok (off, w).
Definition ex_stay : list (indiv nat nat) -> list (indiv nat nat) -> nat -> res (list (indiv nat nat) * nat) := fun par _ w => Ok (par, w).
(** stops at its n-th question *)
Definition ex_cont (n : nat) : continuator nat nat nat nat := Continuator 0 (fun _ s => Ok (S (fst s) <? n, (S (fst s), snd s))).
Definition ex_shelves : shelves nat nat nat nat :=
  Shelves [ex_cont 2; ex_cont 9] [ex_cross 0; ex_cross 10] [ex_mut 0; ex_mut 100; ex_mut 3] [ex_sel 0; ex_sel 1] [ex_stay; ex_comma].
Definition ex_flip (q : Q) (w : nat) : res (bool * nat) := Ok (true, w).
Definition ex_wheel (l : list Q) (w : nat) : res (nat * nat) := Ok (0, w).
Definition ex_eval_foundry := eval_foundry ex_flip ex_wheel (pop_loop_eval ex_eval) ex_shelves 3 ex_init 4 777 Nat.ltb.

(** C186 — an unevaluated solution whose numbers stand for operators that exist gets the fitness of the search made with
    exactly those operators: a new population, evaluated, an eoEasyEA on the selected operators with a new continuator, and the
    best fitness of what it leaves; the foundry then holds that selection *)
Theorem C186_search :
  forall (G F W C : Type) flip wheel pop_eval (sh : shelves G F W C) max_gen init pop_size penalization ltb v k c x m s r fuel f (w : W),
  selection sh v k c x m s r -> of_shelves sh f ->
  exists e, length e = 5 /\ nth_error e 0 = Some (inl k) /\
  eval_foundry flip wheel pop_eval sh max_gen init pop_size penalization ltb fuel (Ind v None) f w =
  let! (u, c', w) := search flip wheel pop_eval max_gen init pop_size ltb c x m s r fuel w in
  Ok (Ind v (Some u), Foundry e (set (live f) k (Some c')), w).
Proof. intros. apply eval_selected; assumption. Qed.
Example C186_search_ex :
  selection ex_shelves [(1#2)%Q; 1%Q; 2%Q; 0%Q; (3#4)%Q] 1 (ex_cont 9) (ex_cross 10) (ex_mut 3) (ex_sel 0) ex_comma /\
  of_shelves ex_shelves (new_foundry ex_shelves) /\
  ex_eval_foundry 10 (Ind [(1#2)%Q; 1%Q; 2%Q; 0%Q; (3#4)%Q] None) (new_foundry ex_shelves) 5 =
    Ok (Ind [(1#2)%Q; 1%Q; 2%Q; 0%Q; (3#4)%Q] (Some 88), Foundry [inl 1; inl 1; inl 2; inl 0; inl 1] [None; Some 2], 9).
Proof.
  split; [|split; [reflexivity|vm_compute; reflexivity]].
  exists (1#2)%Q, 1%Q, 2%Q, 0%Q, (3#4)%Q, [], 1, 2, 0, 1. unfold stands_for, inject_Z. cbn [Z.of_nat Pos.of_succ_nat Pos.succ].
  repeat split; reflexivity || (unfold Qlt, Qle; cbn; lia).
Qed.
(** any number stands for at most one index, an index for itself *)
Theorem C186_indices : forall v k, (stands_for v k -> forall k', stands_for v k' -> k' = k) /\ stands_for (inject_Z (Z.of_nat k)) k.
Proof. intros v k. split; [intros A k' B; eapply stands_for_unique; eauto|apply stands_for_int]. Qed.

(** a number that stands for an operator the foundry does not have: the solution gets the penalization, the foundry keeps its selection *)
Theorem C186_penalised :
  forall (G F W C : Type) flip wheel pop_eval (sh : shelves G F W C) max_gen init pop_size penalization ltb v fuel f (w : W),
  out_of_shelves sh v ->
  eval_foundry flip wheel pop_eval sh max_gen init pop_size penalization ltb fuel (Ind v None) f w =
  let! (pop, w) := initialised init pop_size w in
  let! (_, _, w) := pop_eval [] pop w in Ok (Ind v (Some penalization), f, w).
Proof. intros. apply eval_penalised. assumption. Qed.
Example C186_penalised_ex :
  out_of_shelves ex_shelves [0%Q; 0%Q; 3%Q; 0%Q; 0%Q] /\
  ex_eval_foundry 10 (Ind [0%Q; 0%Q; 3%Q; 0%Q; 0%Q] None) (new_foundry ex_shelves) 5 =
    Ok (Ind [0%Q; 0%Q; 3%Q; 0%Q; 0%Q] (Some 777), new_foundry ex_shelves, 9).
Proof.
  split; [|vm_compute; reflexivity]. exists 0%Q, 0%Q, 3%Q, 0%Q, 0%Q, [], 0, 0, 3, 0, 0. unfold stands_for, inject_Z. cbn [Z.of_nat Pos.of_succ_nat Pos.succ].
  repeat split; try reflexivity; try (unfold Qlt, Qle; cbn; lia).
Qed.
(** a solution that has a fitness is left alone, at no cost *)
Theorem C186_already_evaluated :
  forall (G F W C : Type) flip wheel pop_eval (sh : shelves G F W C) max_gen init pop_size penalization ltb v u fuel f (w : W),
  eval_foundry flip wheel pop_eval sh max_gen init pop_size penalization ltb fuel (Ind v (Some u)) f w = Ok (Ind v (Some u), f, w).
Proof. reflexivity. Qed.

(** what the search returns: the best fitness of an evaluated population of the given size, reached in at most the given number of
    generations (one at least), every population of the run being evaluated and of that size; not worse than the first
    population if the replacement keeps the best *)
Theorem C186_report :
  forall (G F W C : Type) flip wheel pop_eval max_gen init pop_size ltb (value : G -> F) (c : continuator G F W C) x m s r fuel (w : W) u c' w',
  strict_weak_order ltb -> pop_evaluates value pop_eval ->
  (forall par off w par' off' w', pop_eval par off w = Ok (par', off', w') -> par' = par /\ map geno off' = map geno off) ->
  (forall w x w', init w = Ok (x, w') -> right value x) ->
  honest_quad x -> honest_mon m -> (forall pop w y w', pick s pop w = Ok (y, w') -> In y pop) ->
  (forall par off w par' w', r par off w = Ok (par', w') -> incl par' (par ++ off)) ->
  search flip wheel pop_eval max_gen init pop_size ltb c x m s r fuel w = Ok (u, c', w') ->
  exists pop0 w0 tr, length pop0 = pop_size /\ Forall (evaluated value) pop0 /\
    (exists e l w1, initialised init pop_size w = Ok (l, w1) /\ pop_eval [] l w1 = Ok (e, pop0, w0)) /\
    1 <= length tr <= Nat.max 1 max_gen /\
    Forall (fun q => length q = pop_size /\ Forall (evaluated value) q) tr /\
    best_value_of ltb (last tr []) u /\
    (keeps_best ltb value r -> forall y, In y pop0 -> ltb u (value (geno y)) = false).
Proof.
  intros G F W C flip wheel pop_eval max_gen init pop_size ltb value c x m s r fuel w u c' w' H1 H2 H3 H4 H5 H6 H7 H8 H9.
  eapply search_report; eauto; intros; eapply H3; eauto.
Qed.
Lemma ex_pop_evaluates : pop_evaluates (fun g => g * 2) (pop_loop_eval ex_eval).
Proof. apply pop_loop_eval_ok. intros x w x' w' H. injection H as <- <-. cbn [geno fit]. auto. Qed.
Lemma ex_swo : strict_weak_order Nat.ltb.
Proof.
  split; [intros; apply Nat.ltb_irrefl|]. split; intros a b c; rewrite ?Nat.ltb_lt, ?Nat.ltb_ge; lia.
Qed.
Example C186_report_ex :
  strict_weak_order Nat.ltb /\ pop_evaluates (fun g => g * 2) (pop_loop_eval ex_eval) /\
  (forall par off w par' off' w', pop_loop_eval ex_eval par off w = Ok (par', off', w') -> par' = par /\ map geno off' = map geno off) /\
  (forall w x w', ex_init w = Ok (x, w') -> right (fun g => g * 2) x) /\
  honest_quad (ex_cross 10) /\ honest_mon (ex_mut 3) /\ (forall pop w y w', pick (ex_sel 0) pop w = Ok (y, w') -> In y pop) /\
  (forall par off w par' w', ex_comma par off w = Ok (par', w') -> incl par' (par ++ off)) /\
  keeps_best Nat.ltb (fun g => g * 2) ex_stay /\
  search ex_flip ex_wheel (pop_loop_eval ex_eval) 3 ex_init 4 Nat.ltb (ex_cont 9) (ex_cross 10) (ex_mut 3) (ex_sel 0) ex_comma 10 5 = Ok (88, 2, 9).
Proof.
  split; [apply ex_swo|]. split; [apply ex_pop_evaluates|]. split.
  { intros par off w par' off' w' H. unfold pop_loop_eval in H. apply rbind_ok in H as ([o w1] & E & H). injection H as <- <- <-.
    split; [reflexivity|]. revert w o w1 E. induction off as [|y t IH]; intros w o w1 E; cbn [apply_eval] in E.
    - injection E as <- <-. reflexivity.
    - unfold ex_eval at 1 in E. cbn [rbind] in E. apply rbind_ok in E as ([t' w2] & E & E2). injection E2 as <- <-. cbn [map geno]. f_equal. eapply IH; eauto. }
  split; [intros w x w' H; injection H as <- <-; left; reflexivity|].
  split; [intros x y w x' y' w' H; discriminate|]. split; [intros x w x' w' H; discriminate|].
  split; [intros pop w y w' H; cbn [pick ex_sel] in H; apply rbind_ok in H as (z & E & H); injection H as <- <-; apply of_opt_ok in E; eapply nth_error_In; eauto|].
  split; [intros par off w par' w' H; injection H as <- <-; apply incl_appr, incl_refl|].
  split; [|vm_compute; reflexivity].
  intros par off w par' w' _ _ H. injection H as <- <-. intros x Hx. exists x. split; [exact Hx|apply Nat.ltb_irrefl].
Qed.

(** each generation: the selector is set up on the population, couples are picked, crossed, and both members mutated, until there
    are as many offspring as parents (a last one is dropped when their number is odd) *)
Theorem C186_generation :
  forall (G F W : Type) flip wheel tick x m (s : selector G F W) pop (w : W), (forall w, flip 1%Q w = Ok (true, tick w)) ->
  breeding flip wheel x m s pop w =
  let! w := setup s pop w in
  let! (l, w) := couples tick x m (pick s pop) (S (length pop) / 2) w in Ok (firstn (length pop) l, w).
Proof. intros. apply breeding_couples. assumption. Qed.
Example C186_generation_ex :
  breeding ex_flip ex_wheel (ex_cross 10) (ex_mut 3) (ex_sel 1) [Ind 1 (Some 2); Ind 2 (Some 4); Ind 3 (Some 6)] 7 =
    Ok ([Ind 15 None; Ind 15 None; Ind 15 None], 7).
Proof. vm_compute. reflexivity. Qed.

(** the search ends whatever the continuator answers *)
Theorem C186_ends :
  forall (G F W C : Type) flip wheel pop_eval max_gen (c : continuator G F W C) x m s r fuel pop (w : W),
  (forall p o w, exists p' o' w', pop_eval p o w = Ok (p', o', w') /\ length p' = length p) ->
  (forall p w, exists o w', breeding flip wheel x m s p w = Ok (o, w')) ->
  (forall p o w, exists p' w', r p o w = Ok (p', w') /\ length p' = length p) ->
  (forall p s, exists b s', ask c p s = Ok (b, s')) -> max_gen < fuel ->
  exists p tr s', assembled flip wheel pop_eval max_gen c x m s r fuel pop w = Ok (p, tr, s').
Proof.
  intros G F W C flip wheel pop_eval max_gen c x m s r fuel pop w H1 H2 H3 H4 H5. unfold assembled, easy_ea.
  destruct (H1 [] pop w) as (e & pop0 & w0 & E & _). unfold beside at 1. cbn [snd fst]. rewrite E. cbn [rbind].
  apply (loop_ends pop_eval max_gen c (breeding flip wheel x m s) r fuel); auto. cbn [fst]. lia.
Qed.

Example C186_ends_ex :
  (forall p o w, exists p' o' w', pop_loop_eval ex_eval p o w = Ok (p', o', w') /\ length p' = length p) /\
  (forall p o w, exists p' w', ex_stay p o w = Ok (p', w') /\ length p' = length p) /\
  (forall p s, exists b s', ask (ex_cont 9) p s = Ok (b, s')) /\
  assembled ex_flip ex_wheel (pop_loop_eval ex_eval) 3 (ex_cont 9) (ex_cross 0) (ex_mut 3) (ex_sel 0) ex_stay 4 [Ind 1 None; Ind 4 None] 5 =
    Ok ([Ind 1 (Some 2); Ind 4 (Some 8)], repeat [Ind 1 (Some 2); Ind 4 (Some 8)] 3, (3, 2, 5)).
Proof.
  split; [|split; [|split; [|vm_compute; reflexivity]]].
  - intros p o w. unfold pop_loop_eval. assert (E : exists o' w', apply_eval ex_eval o w = Ok (o', w')).
    { revert w. induction o as [|y t IH]; intros w; cbn [apply_eval]; [eauto|]. unfold ex_eval at 1. cbn [rbind]. destruct (IH w) as (t' & w' & ->). cbn [rbind]. eauto. }
    destruct E as (o' & w' & ->). cbn [rbind]. eauto 6.
  - intros p o w. exists p, w. split; reflexivity.
  - intros p s. unfold ex_cont. cbn [ask]. eauto.
Qed.

(** evaluations do not depend on those made before through the same foundry: whatever the selection and the instances it holds,
    the fitness given and what is drawn are the same *)
Theorem C186_history :
  forall (G F W C : Type) flip wheel pop_eval (sh : shelves G F W C) max_gen init pop_size penalization ltb fuel v f1 f2 (w : W) x1 g1 w1,
  of_shelves sh f1 -> of_shelves sh f2 ->
  eval_foundry flip wheel pop_eval sh max_gen init pop_size penalization ltb fuel v f1 w = Ok (x1, g1, w1) ->
  of_shelves sh g1 /\ exists g2, eval_foundry flip wheel pop_eval sh max_gen init pop_size penalization ltb fuel v f2 w = Ok (x1, g2, w1).
Proof.
  intros G F W C flip wheel pop_eval sh max_gen init pop_size penalization ltb fuel [v [u|]] f1 f2 w x1 g1 w1 S1 S2 H.
  - cbn in H. injection H as <- <- <-. split; [exact S1|]. exists f2. reflexivity.
  - pose proof H as H'. unfold eval_foundry in H'. cbn [fit geno] in H'. apply rbind_ok in H' as ([pop w2] & E1 & H').
    apply rbind_ok in H' as ([[e pop1] w3] & E2 & H'). apply rbind_ok in H' as (cfg & E3 & H'). clear H'.
    unfold decode, coordinate in E3. apply rbind_ok in E3 as (k & A0 & E3). apply rbind_ok in E3 as (i1 & A1 & E3).
    apply rbind_ok in E3 as (i2 & A2 & E3). apply rbind_ok in E3 as (i3 & A3 & E3). apply rbind_ok in E3 as (i4 & A4 & E3). clear E3.
    destruct v as [|v0 [|v1 [|v2 [|v3 [|v4 rest]]]]]; cbn [nth_error of_opt rbind] in A0, A1, A2, A3, A4; try discriminate.
    apply index_of_inv in A0, A1, A2, A3, A4.
    assert (D : out_of_shelves sh (v0 :: v1 :: v2 :: v3 :: v4 :: rest) \/
      exists c x m s r, selection sh (v0 :: v1 :: v2 :: v3 :: v4 :: rest) k c x m s r).
    { destruct (nth_error (conts sh) k) as [c|] eqn:B0.
      2:{ apply nth_error_None in B0. left. exists v0, v1, v2, v3, v4, rest, k, i1, i2, i3, i4. repeat split; auto; apply A0 || apply A1 || apply A2 || apply A3 || apply A4. }
      destruct (nth_error (crosses sh) i1) as [x|] eqn:B1.
      2:{ apply nth_error_None in B1. left. exists v0, v1, v2, v3, v4, rest, k, i1, i2, i3, i4. repeat split; auto; apply A0 || apply A1 || apply A2 || apply A3 || apply A4. }
      destruct (nth_error (muts sh) i2) as [m|] eqn:B2.
      2:{ apply nth_error_None in B2. left. exists v0, v1, v2, v3, v4, rest, k, i1, i2, i3, i4. repeat split; auto; apply A0 || apply A1 || apply A2 || apply A3 || apply A4. }
      destruct (nth_error (sels sh) i3) as [s|] eqn:B3.
      2:{ apply nth_error_None in B3. left. exists v0, v1, v2, v3, v4, rest, k, i1, i2, i3, i4. repeat split; auto; apply A0 || apply A1 || apply A2 || apply A3 || apply A4. }
      destruct (nth_error (repls sh) i4) as [r|] eqn:B4.
      2:{ apply nth_error_None in B4. left. exists v0, v1, v2, v3, v4, rest, k, i1, i2, i3, i4. repeat split; auto 6; apply A0 || apply A1 || apply A2 || apply A3 || apply A4. }
      right. exists c, x, m, s, r, v0, v1, v2, v3, v4, rest, i1, i2, i3, i4. repeat split; auto; apply A0 || apply A1 || apply A2 || apply A3 || apply A4. }
    destruct D as [D|(c & x & m & s & r & D)].
    + rewrite eval_penalised in * by exact D. rewrite E1 in *. cbn [rbind] in *. rewrite E2 in *. cbn [rbind] in *.
      injection H as <- <- <-. split; [exact S1|]. exists f2. reflexivity.
    + destruct (eval_selected flip wheel pop_eval sh max_gen init pop_size penalization ltb _ k c x m s r fuel f1 w D S1) as (e1 & _ & _ & Q1).
      destruct (eval_selected flip wheel pop_eval sh max_gen init pop_size penalization ltb _ k c x m s r fuel f2 w D S2) as (e2 & _ & _ & Q2).
      rewrite Q1 in H. rewrite Q2. destruct (search flip wheel pop_eval max_gen init pop_size ltb c x m s r fuel w) as [[[u c'] w']| | |]; cbn [rbind] in *; try discriminate.
      injection H as <- <- <-. split; [unfold of_shelves; cbn [live]; rewrite set_length; exact S1|]. eexists. reflexivity.
Qed.
Example C186_history_ex : of_shelves ex_shelves (Foundry [inl 9] [Some 8; Some 1]) /\ of_shelves ex_shelves (new_foundry ex_shelves).
Proof. split; reflexivity. Qed.

(** C187 — documented, and not so.  "by default, the firsts of the five operators are selected": a new foundry refuses to run *)
Theorem C187_default_refuted :
  forall (G F W C : Type) flip wheel pop_eval (sh : shelves G F W C) max_gen fuel pop (w : W),
  run flip wheel pop_eval sh max_gen fuel pop (new_foundry sh) w = Throw.
Proof. reflexivity. Qed.
(** "if any solution to the high-level algorithm selection problem is out of bounds, set it to [the penalization]": a negative number above -1 selects the first operator ... *)
Theorem C187_negative_refuted : forall v, (-1 < v)%Q -> (v <= 0)%Q -> stands_for v 0.
Proof. intros v A B. unfold stands_for. change (inject_Z (Z.of_nat 0)) with 0%Q. split; lra. Qed.
Example C187_negative_ex :
  ex_eval_foundry 10 (Ind [(-1#2)%Q; 0%Q; 0%Q; 0%Q; 0%Q] None) (new_foundry ex_shelves) 5 =
    Ok (Ind [(-1#2)%Q; 0%Q; 0%Q; 0%Q; 0%Q] (Some 16), Foundry [inl 0; inl 0; inl 0; inl 0; inl 0] [Some 2; None], 9).
Proof. vm_compute. reflexivity. Qed.
(** ... and one of -1 or below is an undefined conversion *)
Theorem C187_undefined_refuted :
  forall (G F W C : Type) flip wheel pop_eval (sh : shelves G F W C) max_gen init pop_size penalization ltb fuel v f (w : W) pop w1 e pop1 w2 i x,
  i < 5 -> nth_error v i = Some x -> (x <= -1)%Q ->
  (forall j y, j < i -> nth_error v j = Some y -> (-1 < y)%Q) ->
  initialised init pop_size w = Ok (pop, w1) -> pop_eval [] pop w1 = Ok (e, pop1, w2) ->
  eval_foundry flip wheel pop_eval sh max_gen init pop_size penalization ltb fuel (Ind v None) f w = UB.
Proof.
  intros G F W C flip wheel pop_eval sh max_gen init pop_size penalization ltb fuel v f w pop w1 e pop1 w2 i x Hi Hx Neg Pos E1 E2.
  unfold eval_foundry. cbn [fit geno]. rewrite E1. cbn [rbind]. rewrite E2. cbn [rbind].
  assert (D : decode v = UB); [|rewrite D; reflexivity].
  assert (B : forall j y, j < i -> nth_error v j = Some y -> exists k, coordinate v j = Ok k).
  { intros j y Hj Hy. unfold coordinate. rewrite Hy. cbn [of_opt rbind]. unfold index_of.
    destruct (Z.ltb_spec (Qceiling y) 0); [|eauto]. specialize (Pos j y Hj Hy). pose proof (Qle_ceiling y) as L.
    exfalso. assert (Hc : (Qceiling y <= -1)%Z) by lia. rewrite Zle_Qle in Hc. change (inject_Z (-1)) with (-1)%Q in Hc. lra. }
  assert (U : coordinate v i = UB) by (unfold coordinate; rewrite Hx; cbn [of_opt rbind]; apply index_of_neg; exact Neg).
  assert (Sm : forall j, j < i -> exists y, nth_error v j = Some y).
  { intros j Hj. destruct (nth_error v j) eqn:E; [eauto|]. apply nth_error_None in E. apply nth_error_lt in Hx. lia. }
  assert (O : forall j, j < i -> exists k, coordinate v j = Ok k) by (intros j Hj; destruct (Sm j Hj) as [y Hy]; eapply B; eauto).
  unfold decode. destruct i as [|[|[|[|[|]]]]]; [| | | | |lia].
  - rewrite U. reflexivity.
  - destruct (O 0 ltac:(lia)) as [k0 ->]. cbn [rbind]. rewrite U. reflexivity.
  - destruct (O 0 ltac:(lia)) as [k0 ->]. destruct (O 1 ltac:(lia)) as [k1 ->]. cbn [rbind]. rewrite U. reflexivity.
  - destruct (O 0 ltac:(lia)) as [k0 ->]. destruct (O 1 ltac:(lia)) as [k1 ->]. destruct (O 2 ltac:(lia)) as [k2 ->]. cbn [rbind]. rewrite U. reflexivity.
  - destruct (O 0 ltac:(lia)) as [k0 ->]. destruct (O 1 ltac:(lia)) as [k1 ->]. destruct (O 2 ltac:(lia)) as [k2 ->]. destruct (O 3 ltac:(lia)) as [k3 ->]. cbn [rbind]. rewrite U. reflexivity.
Qed.
Example C187_undefined_ex :
  ex_eval_foundry 10 (Ind [0%Q; (-1)%Q; 0%Q; 0%Q; 0%Q] None) (new_foundry ex_shelves) 5 = UB.
Proof. vm_compute. reflexivity. Qed.
(** among the numbers of [0, n], which n operators would share, the first is selected by 0 alone and everything above n - 1 is penalised *)
Theorem C187_share_refuted : forall v n, (0 < v)%Q -> ~ stands_for v 0 /\ ((inject_Z (Z.of_nat n) - 1 < v)%Q -> forall k, stands_for v k -> n <= k).
Proof.
  intros v n Hv. split.
  - unfold stands_for. change (inject_Z (Z.of_nat 0)) with 0%Q. intros [_ H]. lra.
  - intros Hn k [_ Hk]. assert (H : (inject_Z (Z.of_nat n) - 1 < inject_Z (Z.of_nat k))%Q) by lra.
    assert (H2 : (inject_Z (Z.of_nat n - 1) < inject_Z (Z.of_nat k))%Q) by (unfold Z.sub; rewrite inject_Z_plus; change (inject_Z (-(1))) with (-1)%Q; lra).
    rewrite <- Zlt_Qlt in H2. lia.
Qed.
Print Assumptions C186_search.
Print Assumptions C186_indices.
Print Assumptions C186_penalised.
Print Assumptions C186_already_evaluated.
Print Assumptions C186_report.
Print Assumptions C186_generation.
Print Assumptions C186_ends.
Print Assumptions C186_history.
Print Assumptions C187_default_refuted.
Print Assumptions C187_negative_refuted.
Print Assumptions C187_undefined_refuted.
Print Assumptions C187_share_refuted.
