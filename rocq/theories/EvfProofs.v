(** Proofs about eoAlgoFoundryEA and eoEvalFoundryEA. *)
From Coq Require Import List Arith Bool ZArith QArith Qround Lia Lqa.
From Verif Require Import Lib Outcome OrderSpec OrderLemmas PopModel PopProofs BreedModel BreedSpec BreedProofs AlgoModel AlgoSpec AlgoProofs FoundModel EvfModel EvfSpec.
Import ListNotations.
Close Scope Q_scope.
Open Scope nat_scope.

Lemma ceiling_iff v z : Qceiling v = z <-> (inject_Z z - 1 < v /\ v <= inject_Z z)%Q.
Proof.
  split.
  - intros <-. split; [|apply Qle_ceiling]. pose proof (Qceiling_lt v) as H. unfold Z.sub in H. rewrite inject_Z_plus in H.
    change (inject_Z (-(1))) with (-1)%Q in H. lra.
  - intros [A B]. pose proof (Qceiling_resp_le _ _ B) as H1. rewrite Qceiling_Z in H1.
    pose proof (Qle_ceiling v) as H2. assert (H3 : (inject_Z (z - 1) < inject_Z (Qceiling v))%Q).
    { unfold Z.sub. rewrite inject_Z_plus. change (inject_Z (-(1))) with (-1)%Q. lra. }
    rewrite <- Zlt_Qlt in H3. lia.
Qed.
Lemma index_of_ok v k : stands_for v k -> index_of v = Ok k.
Proof.
  intros H. apply ceiling_iff in H. unfold index_of. rewrite H. destruct (Z.ltb_spec (Z.of_nat k) 0); [lia|].
  rewrite Nat2Z.id. reflexivity.
Qed.
Lemma index_of_inv v k : index_of v = Ok k -> stands_for v k.
Proof.
  unfold index_of. destruct (Z.ltb_spec (Qceiling v) 0); [discriminate|]. intros [= <-]. unfold stands_for.
  rewrite Z2Nat.id by lia. apply ceiling_iff. reflexivity.
Qed.
Lemma index_of_neg v : (v <= -1)%Q -> index_of v = UB.
Proof.
  intros H. unfold index_of. pose proof (Qceiling_resp_le _ _ H) as E. change (Qceiling (-1)) with (-1)%Z in E.
  destruct (Z.ltb_spec (Qceiling v) 0); [reflexivity|lia].
Qed.
Lemma stands_for_unique v k k' : stands_for v k -> stands_for v k' -> k = k'.
Proof. intros A B. apply ceiling_iff in A, B. lia. Qed.
Lemma stands_for_int k : stands_for (inject_Z (Z.of_nat k)) k.
Proof. apply ceiling_iff, Qceiling_Z. Qed.

Section Foundry.
Context {G F W C : Type}.
Notation I := (indiv G F).
Variable flip : Q -> W -> res (bool * W).
Variable wheel : list Q -> W -> res (nat * W).
Variable pop_eval : pop_evaluator (G:=G) (F:=F) (W:=W).
Variable sh : shelves G F W C.
Variable max_gen : nat.
Variable init : W -> res (I * W).
Variable pop_size : nat.
Variable penalization : F.
Variable ltb : F -> F -> bool.
Notation run := (run flip wheel pop_eval sh max_gen).
Notation eval_foundry := (eval_foundry flip wheel pop_eval sh max_gen init pop_size penalization ltb).
Notation W' := (nat * C * W)%type.

Lemma decode_ok v0 v1 v2 v3 v4 rest k i1 i2 i3 i4 :
  stands_for v0 k -> stands_for v1 i1 -> stands_for v2 i2 -> stands_for v3 i3 -> stands_for v4 i4 ->
  decode (v0 :: v1 :: v2 :: v3 :: v4 :: rest) = Ok [inl k; inl i1; inl i2; inl i3; inl i4].
Proof.
  intros H0 H1 H2 H3 H4. unfold decode, coordinate. cbn [nth_error of_opt rbind].
  rewrite (index_of_ok _ _ H0), (index_of_ok _ _ H1), (index_of_ok _ _ H2), (index_of_ok _ _ H3), (index_of_ok _ _ H4). reflexivity.
Qed.
Notation assembled := (assembled flip wheel pop_eval max_gen).
Notation search := (search flip wheel pop_eval max_gen init pop_size ltb).
Lemma shelf_nth {A} (l : list A) n a : nth_error l n = Some a -> shelf l n = Ok a.
Proof. intros H. unfold shelf. rewrite H. reflexivity. Qed.
Lemma run_selected k i1 i2 i3 i4 c x m s r lv fuel pop w :
  nth_error (conts sh) k = Some c -> nth_error (crosses sh) i1 = Some x -> nth_error (muts sh) i2 = Some m ->
  nth_error (sels sh) i3 = Some s -> nth_error (repls sh) i4 = Some r -> length lv = length (conts sh) ->
  run fuel pop (Foundry [inl k; inl i1; inl i2; inl i3; inl i4] lv) w =
  let! (p, tr, (_, c', w)) := assembled c x m s r fuel pop w in
  Ok (p, tr, Foundry [inl k; inl i1; inl i2; inl i3; inl i4] (set lv k (Some c')), w).
Proof.
  intros H0 H1 H2 H3 H4 L. unfold EvfModel.run, taken, rank. cbn [encodings nth_error rbind].
  rewrite (shelf_nth _ _ _ H1), (shelf_nth _ _ _ H2), (shelf_nth _ _ _ H3). cbn [rbind].
  unfold instantiate. rewrite (shelf_nth _ _ _ H0). cbn [rbind live encodings].
  destruct (nth_error lv k) as [o|] eqn:E; [|apply nth_error_None in E; apply nth_error_lt in H0; lia].
  rewrite (shelf_nth _ _ _ E). cbn [rbind].
  assert (Hs : forall a b : option C, set (set lv k a) k b = set lv k b).
  { intros a b. apply nth_error_ext. intros j. destruct (Nat.eq_dec j k) as [->|N].
    - rewrite !nth_error_set_eq; auto; rewrite ?set_length; apply nth_error_lt in H0; lia.
    - rewrite !nth_error_set_neq by auto. reflexivity. }
  unfold EvfSpec.assembled. destruct o; cbn [rbind encodings live nth_error]; rewrite (shelf_nth _ _ _ H4); cbn [rbind];
    destruct (easy_ea _ _ _ _ fuel pop (0, fresh c, w)) as [[[p tr] [[g c'] w']]| | |]; cbn [rbind]; rewrite ?Hs; reflexivity.
Qed.

Lemma eval_selected v k c x m s r fuel f w :
  selection sh v k c x m s r -> of_shelves sh f ->
  exists e, length e = 5 /\ nth_error e 0 = Some (inl k) /\
  eval_foundry fuel (Ind v None) f w =
  let! (u, c', w) := search c x m s r fuel w in Ok (Ind v (Some u), Foundry e (set (live f) k (Some c')), w).
Proof.
  intros (v0 & v1 & v2 & v3 & v4 & rest & i1 & i2 & i3 & i4 & -> & S0 & S1 & S2 & S3 & S4 & H0 & H1 & H2 & H3 & H4) L.
  exists [inl k; inl i1; inl i2; inl i3; inl i4]. split; [reflexivity|]. split; [reflexivity|].
  unfold EvfModel.eval_foundry, EvfSpec.search. cbn [fit geno].
  destruct (initialised init pop_size w) as [[pop w1]| | |]; cbn [rbind]; try reflexivity.
  destruct (pop_eval [] pop w1) as [[[e pop1] w2]| | |]; cbn [rbind]; try reflexivity.
  rewrite (decode_ok _ _ _ _ _ rest _ _ _ _ _ S0 S1 S2 S3 S4). cbn [rbind rank nth_error].
  pose proof (nth_error_lt _ _ _ H0). pose proof (nth_error_lt _ _ _ H1). pose proof (nth_error_lt _ _ _ H2).
  pose proof (nth_error_lt _ _ _ H3). pose proof (nth_error_lt _ _ _ H4).
  rewrite (proj2 (Nat.ltb_lt _ _)) by assumption. rewrite (proj2 (Nat.ltb_lt i1 _)) by assumption.
  rewrite (proj2 (Nat.ltb_lt i2 _)) by assumption. rewrite (proj2 (Nat.ltb_lt i3 _)) by assumption. rewrite (proj2 (Nat.ltb_lt i4 _)) by assumption.
  cbn [andb select_encodings length Nat.eqb rbind].
  rewrite (run_selected _ _ _ _ _ c x m s r) by assumption.
  destruct (assembled c x m s r fuel pop1 w2) as [[[p tr] [[g c'] w3]]| | |]; cbn [rbind]; try reflexivity.
  destruct (best_fitness ltb p); reflexivity.
Qed.
Lemma eval_penalised v fuel f w : out_of_shelves sh v ->
  eval_foundry fuel (Ind v None) f w =
  let! (pop, w) := initialised init pop_size w in
  let! (_, _, w) := pop_eval [] pop w in Ok (Ind v (Some penalization), f, w).
Proof.
  intros (v0 & v1 & v2 & v3 & v4 & rest & k & i1 & i2 & i3 & i4 & -> & S0 & S1 & S2 & S3 & S4 & H).
  unfold EvfModel.eval_foundry. cbn [fit geno].
  destruct (initialised init pop_size w) as [[pop w1]| | |]; cbn [rbind]; try reflexivity.
  destruct (pop_eval [] pop w1) as [[[e pop1] w2]| | |]; cbn [rbind]; try reflexivity.
  rewrite (decode_ok _ _ _ _ _ rest _ _ _ _ _ S0 S1 S2 S3 S4). cbn [rbind rank nth_error].
  replace (_ && _)%bool with false; [reflexivity|]. symmetry.
  repeat rewrite andb_false_iff. rewrite !Nat.ltb_ge. tauto.
Qed.

(** *** the generations *)
Lemma cont_inv (c : continuator G F W C) (p : list I) (s : W') b s' : combined_continue [by_generations max_gen; by_continuator c] p s = Ok (b, s') ->
  fst (fst s') = S (fst (fst s)) /\ (b = true -> S (fst (fst s)) < max_gen).
Proof.
  destruct s as [[g st] w]. cbn [combined_continue]. unfold by_generations, gen_continue, by_continuator. cbn [rbind].
  destruct (Nat.leb_spec max_gen (S g)); cbn [negb].
  - intros [= <- <-]. cbn [fst]. split; [reflexivity|discriminate].
  - destruct (ask c p (st, w)) as [[b' [st' w']]| | |]; cbn [rbind]; try discriminate.
    destruct b'; intros [= <- <-]; cbn [fst]; split; auto; discriminate.
Qed.
Lemma beside_fst {A} (f : W -> res (A * W)) (s : W') a s' : beside f s = Ok (a, s') -> fst s' = fst s /\ f (snd s) = Ok (a, snd s').
Proof. unfold beside. destruct (f (snd s)) as [[a' w]| | |]; cbn [rbind]; try discriminate. intros [= <- <-]. auto. Qed.
Lemma loop_gens (c : continuator G F W C) br re fuel : forall (pop : list I) (s : W') p tr s',
  ea_loop (fun p o => beside (pop_eval p o)) (fun p => beside (br p)) (fun p o => beside (re p o))
    (combined_continue [by_generations max_gen; by_continuator c]) fuel pop s = Ok (p, tr, s') ->
  1 <= length tr <= Nat.max 1 (max_gen - fst (fst s)).
Proof.
  induction fuel as [|fuel IH]; intros pop s p tr s' H; cbn [ea_loop] in H; [discriminate|].
  apply rbind_ok in H as ([off s1] & E1 & H). apply rbind_ok in H as ([[pop1 off1] s2] & E2 & H).
  apply rbind_ok in H as ([pop2 s3] & E3 & H). destruct (negb _); [discriminate|].
  apply rbind_ok in H as ([b s4] & E4 & H).
  apply beside_fst in E1 as [E1 _], E2 as [E2 _], E3 as [E3 _]. apply cont_inv in E4 as [E4 Hb].
  destruct b.
  - specialize (Hb eq_refl). apply rbind_ok in H as ([[r tr1] s5] & E5 & H). injection H as <- <- <-.
    apply IH in E5. cbn [length]. rewrite E4, E3, E2, E1 in E5. rewrite E3, E2, E1 in Hb. lia.
  - injection H as <- <- <-. cbn [length]. lia.
Qed.
Lemma assembled_gens (c : continuator G F W C) x m s r fuel pop w p tr s' : assembled c x m s r fuel pop w = Ok (p, tr, s') ->
  1 <= length tr <= Nat.max 1 max_gen.
Proof.
  unfold EvfSpec.assembled, easy_ea. intros H. apply rbind_ok in H as ([[e pop0] s0] & E & H).
  apply beside_fst in E as [E _]. apply loop_gens in H. rewrite E in H. cbn [fst] in H. lia.
Qed.
Lemma cont_total (c : continuator G F W C) : (forall p s, exists b s', ask c p s = Ok (b, s')) ->
  forall (p : list I) (s : W'), exists b s', combined_continue [by_generations max_gen; by_continuator c] p s = Ok (b, s').
Proof.
  intros Tc p [[g st] w]. cbn [combined_continue]. unfold by_generations, gen_continue, by_continuator. cbn [rbind].
  destruct (max_gen <=? S g); cbn [negb]; [eauto|]. destruct (Tc p (st, w)) as (b & [st' w'] & E). rewrite E. cbn [rbind].
  destruct b; eauto.
Qed.
(** ... and enough fuel *)
Lemma loop_ends (c : continuator G F W C) br re fuel :
  (forall p o w, exists p' o' w', pop_eval p o w = Ok (p', o', w') /\ length p' = length p) ->
  (forall p w, exists o w', br p w = Ok (o, w')) ->
  (forall p o w, exists p' w', re p o w = Ok (p', w') /\ length p' = length p) ->
  (forall p s, exists b s', ask c p s = Ok (b, s')) ->
  forall pop (s : W'), max_gen - fst (fst s) < fuel ->
  exists p tr s', ea_loop (fun p o => beside (pop_eval p o)) (fun p => beside (br p)) (fun p o => beside (re p o))
    (combined_continue [by_generations max_gen; by_continuator c]) fuel pop s = Ok (p, tr, s').
Proof.
  intros Te Tb Tr Tc. induction fuel as [|fuel IH]; intros pop [[g st] w] Hf; [lia|]. cbn [ea_loop]. cbn [fst] in Hf.
  unfold beside at 1. cbn [snd fst]. destruct (Tb pop w) as (off & w1 & E1). rewrite E1. cbn [rbind].
  unfold beside at 1. cbn [snd fst]. destruct (Te pop off w1) as (pop1 & off1 & w2 & E2 & L2). rewrite E2. cbn [rbind].
  unfold beside at 1. cbn [snd fst]. destruct (Tr pop1 off1 w2) as (pop2 & w3 & E3 & L3). rewrite E3. cbn [rbind].
  rewrite L3, L2, Nat.eqb_refl. cbn [negb].
  destruct (cont_total c Tc pop2 (g, st, w3)) as (b & s4 & E4). rewrite E4. cbn [rbind]. apply cont_inv in E4 as [Hg Hb]. cbn [fst] in Hg, Hb.
  destruct b; [|eauto]. specialize (Hb eq_refl).
  destruct (IH pop2 s4) as (p & tr & s' & E); [lia|]. rewrite E. cbn [rbind]. eauto.
Qed.

(** *** the population evaluated *)
Section Report.
Variable value : G -> F.
Hypothesis Hpe : pop_evaluates value pop_eval.
Hypothesis Hin : forall w x w', init w = Ok (x, w') -> right value x.
Lemma initialised_ok n : forall w l w', initialised init n w = Ok (l, w') -> length l = n /\ Forall (right value) l.
Proof.
  induction n as [|n IH]; intros w l w' H; cbn [initialised] in H; [injection H as <- <-; auto|].
  apply rbind_ok in H as ([x w1] & E & H). apply rbind_ok in H as ([t w2] & E2 & H). injection H as <- <-.
  apply IH in E2 as [A B]. apply Hin in E. cbn [length]. split; [lia|]. constructor; auto.
Qed.
Lemma copies_right (src off : list I) : Forall (right value) src -> Forall (fresh_or_copy src) off -> Forall (right value) off.
Proof.
  intros H. apply Forall_impl. intros y [Hy|Hy]; [left; exact Hy|]. rewrite Forall_forall in H. auto.
Qed.
Variables (c : continuator G F W C) (x : quad_op (G:=G) (F:=F) (W:=W)) (m : mon_op (G:=G) (F:=F) (W:=W)) (s : selector G F W).
Variable r : list I -> list I -> W -> res (list I * W).
Hypothesis Hx : honest_quad x.
Hypothesis Hm : honest_mon m.
Hypothesis Hs : forall pop w y w', pick s pop w = Ok (y, w') -> In y pop.
Hypothesis Hr : forall par off w par' w', r par off w = Ok (par', w') -> incl par' (par ++ off).
Lemma breeding_spec pop w off w' : breeding flip wheel x m s pop w = Ok (off, w') ->
  length off = length pop /\ Forall (fresh_or_copy pop) off.
Proof.
  unfold breeding. intros H. apply rbind_ok in H as (w1 & _ & H). unfold hm_of_rate in H. cbn in H.
  change (HowMany 1 0) with (HowMany 1 0) in H.
  apply general_breeder_spec in H as [A B].
  - split; [|exact B]. unfold hm_call in A. cbn [hm_count hm_rate Z.eqb] in A.
    assert (E : Qceiling (1 * inject_Z (Z.of_nat (length pop))) = Z.of_nat (length pop)) by (rewrite Qmult_1_l; apply Qceiling_Z).
    rewrite E in A. destruct (Z.ltb_spec (Z.of_nat (length pop)) 0); [lia|]. injection A as A. lia.
  - intros v y v' Hy. eapply Hs; eauto.
  - cbn. auto.
Qed.
Notation loop := (ea_loop (fun p o => beside (pop_eval p o)) (fun p => beside (breeding flip wheel x m s p)) (fun p o => beside (r p o))
    (combined_continue [by_generations max_gen; by_continuator c])).
Notation better_or := (dominates_best (fun a b : I => ltb (value (geno a)) (value (geno b)))).
Hypothesis Hswo : strict_weak_order ltb.
Hypothesis Hpar : forall par off w par' off' w', pop_eval par off w = Ok (par', off', w') -> par' = par.
Hypothesis Hgen : forall par off w par' off' w', pop_eval par off w = Ok (par', off', w') -> map geno off' = map geno off.
Notation keeps_best := (keeps_best ltb value r).
Lemma value_swo : strict_weak_order (fun a b : I => ltb (value (geno a)) (value (geno b))).
Proof. destruct Hswo as (A & B & D). split; [|split]; intros; [apply A|eapply B; eauto|eapply D; eauto]. Qed.
Lemma loop_report fuel : forall pop (w : W') p tr w', Forall (evaluated value) pop -> loop fuel pop w = Ok (p, tr, w') ->
  last tr [] = p /\ Forall (fun q => length q = length pop /\ Forall (evaluated value) q) tr /\ tr <> [] /\ (keeps_best -> better_or pop p).
Proof.
  induction fuel as [|fuel IH]; intros pop w p tr w' Hp H; cbn [ea_loop] in H; [discriminate|].
  apply rbind_ok in H as ([off w1] & E1 & H). apply rbind_ok in H as ([[pop1 off1] w2] & E2 & H).
  apply rbind_ok in H as ([pop2 w3] & E3 & H).
  destruct (Nat.eqb_spec (length pop2) (length pop)) as [El|]; cbn [negb] in H; [|discriminate].
  apply rbind_ok in H as ([b w4] & E4 & H).
  apply beside_fst in E1 as [_ E1], E2 as [_ E2], E3 as [_ E3].
  apply breeding_spec in E1 as [_ E1]. apply copies_right in E1; [|apply evaluated_right; exact Hp].
  pose proof (Hpar _ _ _ _ _ _ E2) as ->.
  apply Hpe in E2 as (P1 & P2 & _ & _); [|exact Hp|exact E1].
  pose proof (Hr _ _ _ _ _ E3) as Hi.
  assert (Hp2 : Forall (evaluated value) pop2).
  { apply Forall_forall. intros y Hy. apply Hi in Hy. apply in_app_iff in Hy as [Hy|Hy]; [rewrite Forall_forall in P1|rewrite Forall_forall in P2]; auto. }
  assert (Hk : keeps_best -> better_or pop pop2) by (intros K; exact (K _ _ _ _ _ Hp P2 E3)).
  destruct b.
  - apply rbind_ok in H as ([[p' tr1] w5] & E5 & H). injection H as <- <- <-.
    apply IH in E5 as (L & Fa & N & K); [|exact Hp2].
    split; [rewrite last_cons_ne by exact N; exact L|]. split; [constructor; [auto|rewrite El in Fa; exact Fa]|].
    split; [discriminate|]. intros Kb. eapply dominates_trans; [apply value_swo|apply Hk; exact Kb|apply K; exact Kb].
  - injection H as <- <- <-. split; [reflexivity|]. split; [constructor; auto|]. split; [discriminate|]. exact Hk.
Qed.
Lemma best_fitness_ok (p : list I) u : best_fitness ltb p = Ok u -> best_value_of ltb p u.
Proof.
  unfold best_fitness. intros H. apply rbind_ok in H as (vs & E & H). apply best_element_ok in H; [|exact Hswo].
  assert (M : map fit p = map Some vs).
  { clear H. revert vs E. induction p as [|y t IH]; intros vs E; cbn [fold_right] in E; [injection E as <-; reflexivity|].
    apply rbind_ok in E as (v & E1 & E). apply rbind_ok in E as (l & E2 & E). injection E as <-.
    cbn [map]. rewrite (IH l E2). unfold fitness_of in E1. destruct (fit y); [injection E1 as ->; reflexivity|discriminate]. }
  destruct H as [H1 H2]. split.
  - assert (Hin' : In (Some u) (map fit p)) by (rewrite M; apply in_map; exact H1).
    apply in_map_iff in Hin' as (y & A & B). exists y. auto.
  - intros y v Hy Hv. apply H2. assert (Hin' : In (Some v) (map fit p)) by (rewrite <- Hv; apply in_map; exact Hy).
    rewrite M in Hin'. apply in_map_iff in Hin' as (z & A & B). injection A as ->. exact B.
Qed.
Lemma search_report fuel w u c' w' : search c x m s r fuel w = Ok (u, c', w') ->
  exists pop0 w0 tr, length pop0 = pop_size /\ Forall (evaluated value) pop0 /\
    (exists e l w1, initialised init pop_size w = Ok (l, w1) /\ pop_eval [] l w1 = Ok (e, pop0, w0)) /\
    1 <= length tr <= Nat.max 1 max_gen /\
    Forall (fun q => length q = pop_size /\ Forall (evaluated value) q) tr /\
    best_value_of ltb (last tr []) u /\
    (keeps_best -> forall y, In y pop0 -> ltb u (value (geno y)) = false).
Proof.
  unfold EvfSpec.search. intros H. apply rbind_ok in H as ([l w1] & E1 & H). apply rbind_ok in H as ([[e pop0] w2] & E2 & H).
  apply rbind_ok in H as ([[p tr] [[g c2] w3]] & E3 & H). apply rbind_ok in H as (v & E4 & H). injection H as <- <- <-.
  pose proof (initialised_ok _ _ _ _ E1) as [L R]. pose proof (Hpe _ _ _ _ _ _ (Forall_nil _) R E2) as (_ & Ev & _ & L0).
  pose proof (assembled_gens _ _ _ _ _ _ _ _ _ _ _ E3) as Hg.
  unfold EvfSpec.assembled, easy_ea in E3. apply rbind_ok in E3 as ([[e' pop1] s1] & E5 & E3). apply beside_fst in E5 as [_ E5]. cbn [snd] in E5.
  pose proof (Hpe _ _ _ _ _ _ (Forall_nil _) (evaluated_right _ _ Ev) E5) as (_ & Ev1 & _ & L1).
  apply loop_report in E3 as (La & Fa & N & K); [|exact Ev1].
  exists pop0, w2, tr. split; [lia|]. split; [exact Ev|]. split; [eauto 7|]. split; [exact Hg|].
  split; [rewrite L1, L0, L in Fa; exact Fa|]. subst p. apply best_fitness_ok in E4. split; [exact E4|].
  intros Kb y Hy.
  apply Hgen in E5. assert (Hy1 : In (geno y) (map geno pop1)) by (rewrite E5; apply in_map; exact Hy).
  apply in_map_iff in Hy1 as (y1 & Eg & Hy1). rewrite <- Eg. destruct (K Kb y1 Hy1) as (z & Hz & Lz).
  destruct E4 as [_ E4].
  assert (Ez : evaluated value z).
  { rewrite Forall_forall in Fa. destruct (Fa (last tr [])) as [_ Fz]; [|rewrite Forall_forall in Fz; auto].
    destruct (exists_last N) as (a & q & ->). rewrite last_last. apply in_elt. }
  pose proof (E4 z _ Hz Ez) as Hz'. apply (swo_ntrans ltb Hswo _ (value (geno z))); assumption.
Qed.
End Report.
End Foundry.
