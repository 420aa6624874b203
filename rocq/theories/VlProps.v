(** C151, C152: operators on variable-length chromosomes, gene-wise mutations, proportional combinations. *)
From Coq Require Import Arith Bool QArith Permutation Lia.
From Verif Require Import Lib Outcome SelectModel SelectSpec SelectProofs SelectQ VlModel VlSpec VlProofs.
From Coq Require Import List.
Import ListNotations.
Local Open Scope nat_scope.

(** ** C151 *)

(** eoVlAddMutation: below the maximal size exactly one initialized gene is inserted, the others keep
    their order; at the maximal size nothing happens *)
Theorem C151_add : forall A init nMax (l : list A) ds l' b ds', vl_add A init nMax l ds = Ok (l', b, ds') ->
  (b = false /\ nMax <= length l /\ l' = l /\ ds' = ds) \/
  (b = true /\ length l < nMax /\
   exists before a after ds1, l = before ++ after /\ l' = before ++ a :: after /\ init ds = Ok (a, ds1)).
Proof. exact vl_add_ok. Qed.
(** every position is possible, the two ends included, and no draw makes the call undefined *)
Theorem C151_add_anywhere : forall A (init : list nat -> res (A * list nat)) nMax before after a ds ds',
  length (before ++ after) < nMax -> init ds = Ok (a, length before :: ds') ->
  vl_add A init nMax (before ++ after) ds = Ok (before ++ a :: after, true, ds').
Proof. intros A init nMax before after a ds ds' L E. exact (vl_add_at A init nMax before after a _ ds ds' L E eq_refl). Qed.
Theorem C151_add_total : forall A (init : list nat -> res (A * list nat)) nMax l ds a d ds',
  init ds = Ok (a, d :: ds') -> exists r, vl_add A init nMax l ds = Ok r.
Proof. exact vl_add_total. Qed.

(** eoVlDelMutation: above the minimal size exactly the chosen gene goes, otherwise nothing happens *)
Theorem C151_del : forall A chooser nMin (l : list A) ds l' b ds', vl_del A chooser nMin l ds = Ok (l', b, ds') ->
  (b = false /\ length l <= nMin /\ l' = l /\ ds' = ds) \/
  (b = true /\ nMin < length l /\
   exists before a after, l = before ++ a :: after /\ l' = before ++ after /\
     chooser l ds = Ok (length before, ds')).
Proof. exact vl_del_ok. Qed.
Theorem C151_del_anywhere : forall A nMin before (a : A) after ds, nMin < length (before ++ a :: after) ->
  vl_del A (uniform_chooser A) nMin (before ++ a :: after) (length before :: ds) = Ok (before ++ after, true, ds).
Proof. exact vl_del_at. Qed.
Theorem C151_del_total : forall A nMin (l : list A) d ds, exists r, vl_del A (uniform_chooser A) nMin l (d :: ds) = Ok r.
Proof. exact vl_del_uniform_total. Qed.

(** any life of additions and deletions stays within the two bounds *)
Theorem C151_sizes_for_life : forall A init chooser nMin nMax (l l' : list A),
  lives init chooser nMin nMax l l' -> within nMin nMax (length l) -> within nMin nMax (length l').
Proof. exact lives_within. Qed.

Example C151_add_ex : vl_add nat (fun ds => Ok (9, ds)) 3 [4;5] [1] = Ok ([4;9;5], true, []) /\
  vl_add nat (fun ds => Ok (9, ds)) 2 [4;5] [1] = Ok ([4;5], false, [1]).
Proof. split; reflexivity. Qed.
Example C151_del_ex : vl_del nat (uniform_chooser nat) 1 [4;5;6] [4] = Ok ([4;6], true, []) /\
  vl_del nat (uniform_chooser nat) 3 [4;5;6] [4] = Ok ([4;5;6], false, [4]).
Proof. split; reflexivity. Qed.
Example C151_life_ex : lives (fun ds => Ok (9, ds)) (uniform_chooser nat) 1 3 [4] [9].
Proof.
  eapply (lives_add _ _ _ _ _ [4;9] true [1] []); [reflexivity|].
  eapply (lives_del _ _ _ _ _ [9] true [0] []); [reflexivity|]. constructor.
Qed.

(** eoVlAtomExchangeQuadOp, any exchanger: answering "no", it changes nothing; answering "yes", the
    two children share out the genes of the two parents, in order, and both sizes are right *)
Theorem C151_exchange : forall A X (ex : exchanger A X) limit mn mx s x1 x2 ds x1' x2' b s' ds',
  vl_exchange A ex limit mn mx s x1 x2 ds = Ok (x1', x2', b, s', ds') ->
  (b = false /\ x1' = x1 /\ x2' = x2) \/
  (b = true /\ within mn mx (length x1') /\ within mn mx (length x2') /\
   Permutation (x1' ++ x2') (x1 ++ x2) /\
   exists p q, x1' = genes_at p x1 ++ genes_at (fun i => negb (q i)) x2 /\
               x2' = genes_at (fun i => negb (p i)) x1 ++ genes_at q x2 /\
     (forall i a, nth_error x1 i = Some a -> asks ex s' i a = Ok (p i)) /\
     (forall i a, nth_error x2 i = Some a -> asks ex s' i a = Ok (q i))).
Proof.
  intros A X ex limit mn mx s x1 x2 ds x1' x2' b s' ds' H.
  destruct (vl_exchange_ok _ _ _ _ _ _ _ _ _ _ _ _ _ _ H) as [K|(-> & W1 & W2 & p & q & E1 & E2 & Hp & Hq)]; [auto|].
  right. repeat split; try apply W1; try apply W2; [subst; apply split_perm|]. exists p, q. auto.
Qed.
(** with the uniform exchanger the children keep each locus: one of them gets the gene of the first
    parent, the other that of the second; so their sizes lie between those of the parents *)
Theorem C151_exchange_uniform : forall A limit mn mx s (x1 x2 : list A) ds x1' x2' b s' ds',
  vl_exchange A (uniform_exchange A) limit mn mx s x1 x2 ds = Ok (x1', x2', b, s', ds') ->
  (exists p, b = true -> x1' = genes_at p x1 ++ genes_at (fun i => negb (p i)) x2 /\
                         x2' = genes_at (fun i => negb (p i)) x1 ++ genes_at p x2) /\
  Nat.min (length x1) (length x2) <= length x1' <= Nat.max (length x1) (length x2) /\
  Nat.min (length x1) (length x2) <= length x2' <= Nat.max (length x1) (length x2).
Proof. exact uniform_exchange_sizes. Qed.
(** ... and for parents of right sizes the first trial succeeds, whatever the draws *)
Theorem C151_exchange_first_trial : forall A limit mn mx s (x1 x2 : list A) ds,
  within mn mx (length x1) -> within mn mx (length x2) -> 1 < limit -> length x1 + length x2 <= length ds ->
  exists x1' x2' s', vl_exchange A (uniform_exchange A) limit mn mx s x1 x2 ds =
    Ok (x1', x2', true, s', skipn (length x1 + length x2) ds) /\
    within mn mx (length x1') /\ within mn mx (length x2').
Proof. exact uniform_exchange_first. Qed.
Example C151_exchange_ex : vl_exchange nat (uniform_exchange nat) 10 1 3 [] [1;2;3] [4;5] [1;0;1;0;0] =
  Ok ([1;3;5], [2;4], true, [true;false;true;false;false], []).
Proof. reflexivity. Qed.
Example C151_exchange_no_ex : exists ds s', vl_exchange nat (uniform_exchange nat) 2 2 2 [] [1;2;3] [4] ds =
  Ok ([1;2;3], [4], false, s', []).
Proof. exists [1;1;1;1; 1;1;1;1], [true;true;true;true]. reflexivity. Qed.

(** eoInnerExchangeQuadOp *)
Theorem C151_inner : forall A op (x1 x2 : list A) ds x1' x2' b ds', inner_exchange A op x1 x2 ds = Ok (x1', x2', b, ds') ->
  length x1' = length x1 /\ length x2' = length x2 /\
  (forall i a c a' c', nth_error x1 i = Some a -> nth_error x2 i = Some c ->
     nth_error x1' i = Some a' -> nth_error x2' i = Some c' -> (a' = a /\ c' = c) \/ made_by_both op a c a' c') /\
  (forall i, length x2 <= i -> nth_error x1' i = nth_error x1 i) /\
  (forall i, length x1 <= i -> nth_error x2' i = nth_error x2 i) /\
  (honest_atoms op -> b = false -> x1' = x1 /\ x2' = x2).
Proof. exact inner_ok. Qed.
Example C151_inner_ex : inner_exchange nat (fun a b ds => Ok (b, a, true, ds)) [1;2;3] [7;8] [0;1] = Ok ([1;8;3], [7;2], true, []).
Proof. reflexivity. Qed.

(** eoVlUniformQuadOp: the sizes are right when it answers "yes"; the genes are those of the parents,
    once per trial it took; it took one trial when the parents together exceed the maximal size *)
Theorem C151_uniform_quad : forall A limit mn mx (x1 x2 : list A) ds x1' x2' b ds',
  vl_uniform_quad A limit mn mx x1 x2 ds = Ok (x1', x2', b, ds') ->
  (b = false /\ x1' = x1 /\ x2' = x2) \/
  (b = true /\ within mn mx (length x1') /\ within mn mx (length x2') /\
   exists trials, 1 <= trials < limit /\ Permutation (x1' ++ x2') (copies trials (x1 ++ x2)) /\
     (mx < length x1 + length x2 -> trials = 1)).
Proof.
  intros A limit mn mx x1 x2 ds x1' x2' b ds' H.
  destruct (vl_uniform_quad_ok _ _ _ _ _ _ _ _ _ _ _ H) as [K|(-> & W1 & W2 & t & Ht & P)]; [auto|].
  right. split; [reflexivity|]. split; [exact W1|]. split; [exact W2|]. exists t. split; [exact Ht|]. split; [exact P|].
  intros L. apply Permutation_length in P. unfold within in *. rewrite app_length in P.
  destruct t as [|[|t]]; [lia|reflexivity|]. rewrite !copies_S, !app_length in P. lia.
Qed.
(** eoVlUniformBinOp: the size is right when it answers "yes" and the genes come from the parents *)
Theorem C151_uniform_bin : forall A limit mn mx (x1 x2 : list A) ds x1' ds',
  vl_uniform_bin A limit mn mx x1 x2 ds = Ok (x1', true, ds') ->
  within mn mx (length x1') /\ forall a, In a x1' -> In a x1 \/ In a x2.
Proof.
  intros A limit mn mx x1 x2 ds x1' ds' H.
  destruct (vl_uniform_bin_ok _ _ _ _ _ _ _ _ _ _ H) as [[_ K]|(W & K & _)]; [discriminate|]. split; assumption.
Qed.
(** ... and what it did when it answers "no": nothing, or the child is copies of one parent *)
Theorem C151_uniform_bin_no : forall A limit mn mx (x1 x2 : list A) ds x1' ds',
  vl_uniform_bin A limit mn mx x1 x2 ds = Ok (x1', false, ds') ->
  x1' = x1 \/ exists trials, 1 <= trials < limit /\ (x1' = copies trials x1 \/ x1' = copies trials x2).
Proof.
  intros A limit mn mx x1 x2 ds x1' ds' H.
  destruct (vl_uniform_bin_ok _ _ _ _ _ _ _ _ _ _ H) as [[K _]|(_ & _ & K)]; [auto|]. right. auto.
Qed.
Example C151_uniform_ex :
  vl_uniform_quad nat 10 1 3 [1;2] [3;4] [1;0;0;0] = Ok ([1], [2;3;4], true, []) /\
  vl_uniform_bin nat 10 1 3 [1;2] [3;4] [1;0;0;1] = Ok ([1;3], true, []).
Proof. split; reflexivity. Qed.

(** eoFlOrAllMutation, eoFlOrKMutation: the length stays, each gene is as before or as the atom mutation
    made it (at most nb positions for the second), and "no change" is honest *)
Theorem C151_all_mutation : forall A op (l : list A) ds l' b ds', all_mutation A op l ds = Ok (l', b, ds') ->
  Forall2 (fun a a' => a' = a \/ made_by op a a') l l' /\ (honest_atom op -> b = false -> l' = l).
Proof. exact all_mutation_ok. Qed.
Theorem C151_all_mutation_report : forall A op (l : list A) ds l' ds', all_mutation A op l ds = Ok (l', true, ds') ->
  exists a u a' u', In a l /\ In a' l' /\ op a u = Ok (a', true, u').
Proof.
  intros A op l. induction l as [|x l IH]; intros ds l' ds' H; cbn [all_mutation] in H; [discriminate|].
  apply rbind_ok in H as ([f ds1] & _ & H). apply rbind_ok in H as ([[a' here] ds2] & Ha & H). apply rbind_ok in H as ([[r' later] ds3] & Hr & H).
  injection H as <- Hb <-. destruct here.
  - destruct f; [|discriminate]. exists x, ds1, a', ds2. cbn. auto.
  - cbn in Hb. subst later. destruct (IH _ _ _ Hr) as (a & u & b & u' & K1 & K2 & K3). exists a, u, b, u'. cbn. auto.
Qed.
Theorem C151_k_mutation : forall A op nb (l : list A) ds l' b ds', k_mutation A op nb l ds = Ok (l', b, ds') ->
  length l' = length l /\
  (exists touched, length touched <= nb /\ forall i, ~ In i touched -> nth_error l' i = nth_error l i) /\
  (honest_atom op -> b = false -> l' = l).
Proof. exact k_mutation_ok. Qed.
Theorem C151_k_mutation_total : forall A op nb (l : list A) ds, l <> [] -> nb <= length ds ->
  (forall a ds, exists a' b, op a ds = Ok (a', b, ds)) -> exists r, k_mutation A op nb l ds = Ok r.
Proof. exact k_mutation_total. Qed.
(** on a chromosome without genes the second one accesses a gene that does not exist *)
Theorem C151_k_mutation_empty_outside : forall A op nb d ds, k_mutation A op (S nb) [] (d :: ds) = UB.
Proof. exact k_mutation_empty. Qed.
Example C151_mutation_ex :
  all_mutation nat (fun a ds => Ok (a + 10, true, ds)) [1;2;3] [1;0;1] = Ok ([11;2;13], true, []) /\
  k_mutation nat (fun a ds => Ok (a + 10, true, ds)) 2 [1;2;3] [1;1] = Ok ([1;22;3], true, []).
Proof. split; reflexivity. Qed.

(** eoPropCombinedMonOp, eoPropCombinedQuadOp, eoCombinedInit: exactly one of the added operators is applied,
    the one whose share of the total rate the draw falls in *)
Theorem C151_combination : forall (T R : Type) (op0 : T -> R) r0 more u x,
  let c := fold_left (fun c or => combine_add c (fst or) (snd or)) more (combine_first op0 r0) in
  let ops := op0 :: map fst more in let rates := r0 :: map snd more in
  non_negative rates -> (0 <= u < 1)%Q -> (0 < total rates)%Q ->
  exists i op, nth_error ops i = Some op /\ combine_apply c u x = Ok (op x) /\
    (prefix rates i <= u * total rates < prefix rates (S i))%Q.
Proof.
  intros T R op0 r0 more u x c ops rates Hn Hu Ht.
  destruct (rng_roulette_full rates 0 u Hn Hu Ht) as ((i & Hi) & K); [left; reflexivity|].
  destruct (proj1 (K i) Hi) as [Li Hp].
  assert (Lr : length rates = length ops) by (unfold rates, ops; cbn; rewrite !map_length; reflexivity).
  destruct (nth_error ops i) as [op|] eqn:E; [|apply nth_error_None in E; lia].
  exists i, op. split; [exact E|]. split; [|exact Hp].
  unfold combine_apply, c. rewrite combine_built. cbn [fst snd]. fold rates. rewrite Hi. cbn [rbind].
  fold ops. rewrite E. reflexivity.
Qed.
Example C151_combination_ex : combine_apply (combine_add (combine_first (fun n : nat => n + 1) (1#1)%Q) (fun n => n * 10) (3#1)%Q) (1#2)%Q 5 = Ok 50.
Proof. reflexivity. Qed.

(** ** C152 *)

(** eoVlUniformQuadOp says it exchanges the genes of the parents; its temporaries are not cleared between
    two trials, so after an unsuccessful one both children may carry every gene twice *)
Theorem C152_uniform_quad_conserves_genes_refuted : forall limit, 3 <= limit ->
  exists ds, vl_uniform_quad nat limit 1 2 [1] [2] ds = Ok ([1;2], [1;2], true, []).
Proof.
  intros [|[|[|limit]]] L; try lia. exists [1;1;0;0]. reflexivity.
Qed.
(** eoVlUniformBinOp may answer "unchanged" after having replaced the chromosome by the other parent, so
    the caller does not invalidate the fitness *)
Theorem C152_uniform_bin_unchanged_refuted : forall A limit mn mx (x1 x2 : list A), 2 <= limit ->
  within mn mx (length x2) -> exists ds, vl_uniform_bin A limit mn mx x1 x2 ds = Ok (x2, false, []).
Proof.
  intros A limit mn mx x1 x2 L W. exists (repeat 0 (length x1) ++ repeat 0 (length x2)).
  destruct limit as [|t]; [lia|]. unfold vl_uniform_bin. cbn [vl_bin_loop].
  assert (G1 : forall l tmp own other ds, exists own', gather A true l tmp own other (repeat 0 (length l) ++ ds) = Ok (tmp, own', other, ds)).
  { induction l as [|a l IH]; intros; cbn; [eauto|]. apply IH. }
  assert (G2 : forall l tmp own other ds, exists other', gather A false l tmp own other (repeat 0 (length l) ++ ds) = Ok (tmp ++ l, own, other', ds)).
  { induction l as [|a l IH]; intros tmp own other ds; cbn; [rewrite app_nil_r; eauto|].
    destruct (IH (tmp ++ [a]) own false ds) as (o & ->). rewrite <- app_assoc. eauto. }
  destruct (G1 x1 [] true true (repeat 0 (length x2))) as (o1 & ->). cbn [rbind].
  destruct (G2 x2 [] true o1 []) as (o2 & E). rewrite app_nil_r in E. rewrite E. cbn [rbind app].
  unfold within in W.
  replace ((length x2 <? mn) || (mx <? length x2)) with false
    by (symmetry; apply orb_false_iff; rewrite !Nat.ltb_ge; lia).
  cbn [rbind]. replace (S t <=? 1) with false by (symmetry; apply Nat.leb_gt; lia). reflexivity.
Qed.
Example C152_bin_ex : vl_uniform_bin nat 10 1 3 [1;2] [3;4] [0;0;0;0] = Ok ([3;4], false, []).
Proof. reflexivity. Qed.
Print Assumptions C151_add.
Print Assumptions C151_add_anywhere.
Print Assumptions C151_add_total.
Print Assumptions C151_del.
Print Assumptions C151_del_anywhere.
Print Assumptions C151_del_total.
Print Assumptions C151_sizes_for_life.
Print Assumptions C151_exchange.
Print Assumptions C151_exchange_uniform.
Print Assumptions C151_exchange_first_trial.
Print Assumptions C151_inner.
Print Assumptions C151_uniform_quad.
Print Assumptions C151_uniform_bin.
Print Assumptions C151_uniform_bin_no.
Print Assumptions C151_all_mutation.
Print Assumptions C151_k_mutation.
Print Assumptions C151_k_mutation_total.
Print Assumptions C151_k_mutation_empty_outside.
Print Assumptions C151_combination.
Print Assumptions C152_uniform_quad_conserves_genes_refuted.
Print Assumptions C152_uniform_bin_unchanged_refuted.
Print Assumptions C151_all_mutation_report.
