(** C37: tabu lists; C38: the tenure in a whole tabu search. *)
From Coq Require Import List Arith Bool Lia.
From Verif Require Import Outcome Lib OrderSpec OrderLemmas NeighModel NeighSpec NeighProofs LsModel LsSpec LsTabu LsInst TabuModel TabuSpec TabuProofs TabuLs.
Import ListNotations.
Open Scope nat_scope.

(** ** C37 *)
(** the indexed tabu lists: after any calls there are tenures, one per add and each as announced by
    the constructor, such that the tabu moves are those of the specification *)
Theorem C37_indexed : forall k maxSize cs ds t ds', ti_run k maxSize cs (ti_new maxSize) ds = Ok (t, ds') ->
  exists hs, length hs = length cs /\ (forall i h, In (CAdd i, h) (combine cs hs) -> i < maxSize -> tenure_in k h) /\
    forall i, i < maxSize -> exists b, ti_check t i = Ok b /\ (b = true <-> tabu_move (combine cs hs) i).
Proof. exact ti_tabu. Qed.
Print Assumptions C37_indexed.
(** with a fixed tenure: tabu exactly as long as fewer than howlong updates took place since the last add *)
Theorem C37_indexed_fixed : forall howlong maxSize cs ds,
  exists t, ti_run (Fixed howlong) maxSize cs (ti_new maxSize) ds = Ok (t, ds) /\
    forall i, i < maxSize -> exists b, ti_check t i = Ok b /\
      (b = true <-> exists before after, cs = before ++ CAdd i :: after /\ (forall c, In c after -> c <> CAdd i /\ c <> CClear) /\ number is_update after < howlong).
Proof.
  intros h M cs ds.
  assert (Tot : forall cs t, length t = M -> exists t', ti_run (Fixed h) M cs t ds = Ok (t', ds)).
  { clear. induction cs as [|c cs IH]; intros t L; cbn [ti_run]; [eauto|].
    assert (Hc : exists t', ti_call (Fixed h) M c t ds = Ok (t', ds) /\ length t' = M).
    { destruct c as [i| |]; cbn [ti_call].
      - unfold ti_add. destruct (Nat.ltb_spec i M); [|eauto]. cbn [tenure rbind]. rewrite upd_set by lia. cbn. eexists. split; [reflexivity|]. rewrite set_length. auto.
      - eexists. split; [reflexivity|]. unfold ti_update. rewrite map_length. auto.
      - eexists. split; [reflexivity|]. unfold ti_clear. rewrite map_length. auto. }
    destruct Hc as (t' & -> & L'). cbn [rbind]. auto. }
  destruct (Tot cs (ti_new M) (repeat_length _ _)) as (t & Et). clear Tot.
  exists t. split; auto. intros i Hi. destruct (ti_tabu _ _ _ _ _ _ Et) as (hs & L & Hh & Hb). destruct (Hb i Hi) as (b & Eb & Hbb). exists b. split; auto. rewrite Hbb.
  split.
  - intros (before & after & h0 & E & Hc & Hn). exists (map fst before), (map fst after).
    assert (Ecs : cs = map fst (combine cs hs)). { clear -L. revert hs L. induction cs; intros [|? ?] L; cbn in *; try discriminate; auto. f_equal. apply IHcs. lia. }
    assert (Eh : h0 = h). { apply (Hh i); auto. rewrite E. apply in_or_app. right. left. auto. } subst h0.
    split; [rewrite Ecs, E, map_app; reflexivity|]. auto.
  - intros (before & after & E & Hc & Hn). subst cs.
    assert (Ex : exists h1 h0 h2, hs = h1 ++ h0 :: h2 /\ length h1 = length before /\ length h2 = length after).
    { clear -L. rewrite app_length in L. cbn in L. exists (firstn (length before) hs), (nth (length before) hs 0), (skipn (S (length before)) hs).
      split; [|rewrite firstn_length, skipn_length; lia]. rewrite <- (firstn_skipn (length before) hs) at 1. f_equal. 
      assert (K : length before < length hs) by lia. revert K. generalize (length before). clear. induction hs; intros [|n] K; cbn in *; try lia; auto. apply IHhs. lia. }
    destruct Ex as (h1 & h0 & h2 & -> & L1 & L2).
    assert (CA : forall (a1 a2 : list (call nat)) (b1 b2 : list nat), length b1 = length a1 -> combine (a1 ++ a2) (b1 ++ b2) = combine a1 b1 ++ combine a2 b2).
    { clear. induction a1; intros a2 [|? b1] b2 H; cbn in *; try discriminate; auto. f_equal. apply IHa1. lia. }
    rewrite CA in * by auto. cbn [combine] in *.
    assert (Eh : h0 = h). { apply (Hh i); auto. apply in_or_app. right. left. auto. } subst h0.
    exists (combine before h1), (combine after h2), h. split; auto.
    replace (map fst (combine after h2)) with after; auto. clear -L2. revert h2 L2. induction after; intros [|? ?] L; cbn in *; try discriminate; auto. f_equal. apply IHafter. lia.
Qed.
Print Assumptions C37_indexed_fixed.
(** no call is undefined, as long as howlongMin <= howlongMax *)
Theorem C37_indexed_total : forall k maxSize cs ds, (match k with Robust mn mx => mn <= mx | _ => True end) -> number is_add cs <= length ds ->
  exists t ds', ti_run k maxSize cs (ti_new maxSize) ds = Ok (t, ds').
Proof. intros k M cs ds Hk Hd. apply ti_run_total; auto. apply repeat_length. Qed.
Print Assumptions C37_indexed_total.
(** the lists of neighbors and of solutions: the tabu entries are those of the specification *)
Theorem C37_neighbor_list : forall E (equals : E -> E -> bool) maxSize howlong cs, 0 < maxSize ->
  exists t, ring_run E maxSize howlong cs (neighbor_list_new E) = Ok t /\ forall x, ring_check E equals howlong t x = true <-> tabu_entry equals maxSize howlong cs x.
Proof. intros. apply neighbor_list_tabu; auto. Qed.
Print Assumptions C37_neighbor_list.
(** the solution list after its init, which clears it *)
Theorem C37_solution_list : forall E (equals : E -> E -> bool) maxSize howlong cs, 0 < maxSize ->
  exists t, ring_run E maxSize howlong (CClear :: cs) (sol_list_new E) = Ok t /\ forall x, ring_check E equals howlong t x = true <-> tabu_entry equals maxSize howlong cs x.
Proof. intros. apply sol_list_tabu; auto. Qed.
Print Assumptions C37_solution_list.

(** move 1 is added with tenure 2, is tabu after one update and no longer after two; move 0, never added, is not *)
Example C37_indexed_ex : ti_run (Fixed 2) 3 [CAdd 1; CUpdate] (ti_new 3) [] = Ok ([0; 1; 0], []) /\
  ti_run (Fixed 2) 3 [CAdd 1; CUpdate; CUpdate] (ti_new 3) [] = Ok ([0; 0; 0], []) /\
  ti_check [0; 1; 0] 1 = Ok true /\ ti_check [0; 1; 0] 0 = Ok false /\
  ti_run (Robust 2 5) 3 [CAdd 1; CUpdate; CAdd 0] (ti_new 3) [1; 5] = Ok ([4; 2; 0], []) /\ tenure_in (Robust 2 5) 4 /\ tenure_in (Robust 2 5) 3.
Proof. cbn [tenure_in]. repeat split; lia. Qed.
(** three adds in a list of two: the first is evicted *)
Example C37_ring_ex : exists t, ring_run nat 2 0 [CAdd 7; CAdd 8; CUpdate; CAdd 9] (neighbor_list_new nat) = Ok t /\
  ring_check nat Nat.eqb 0 t 7 = false /\ ring_check nat Nat.eqb 0 t 8 = true /\ ring_check nat Nat.eqb 0 t 9 = true.
Proof. eexists. repeat split. Qed.

(** An index that is not smaller than maxSize is silently ignored by add but read by check
    (moIndexedVectorTabuList.h:92 and 118): undefined. *)
Theorem C37_index_out_of_range_outside :
  ~ (forall k maxSize cs ds t ds' i, ti_run k maxSize cs (ti_new maxSize) ds = Ok (t, ds') -> In (CAdd i) cs -> exists b, ti_check t i = Ok b).
Proof.
  intros H. destruct (H (Fixed 2) 1 [CAdd 1] [] [0] [] 1 eq_refl) as (b & Hb); [left; auto|]. discriminate.
Qed.
Print Assumptions C37_index_out_of_range_outside.
(** Without init, the solution list uses its index uninitialised once it is full (moSolVectorTabuList.h:51-54). *)
Theorem C37_solution_list_without_init_outside :
  ~ (forall E maxSize howlong cs, 0 < maxSize -> exists t, ring_run E maxSize howlong cs (sol_list_new E) = Ok t).
Proof.
  intros H. destruct (H nat 1 0 [CAdd 3; CAdd 4]) as (t & Ht); [lia|]. discriminate.
Qed.
Print Assumptions C37_solution_list_without_init_outside.
(** A list of at most 0 entries computes index % 0 on its first add. *)
Theorem C37_empty_list_outside : forall E howlong (x : E) t, ring_run E 0 howlong (CAdd x :: t) (neighbor_list_new E) = UB /\ ring_run E 0 howlong (CClear :: CAdd x :: t) (sol_list_new E) = UB.
Proof. intros. split; reflexivity. Qed.
Print Assumptions C37_empty_list_outside.

(** ** C38 *)
(** turn [k] changed bit [i] *)
Definition flipped {F} (l : list (sol (list bool) F)) (k i : nat) : Prop :=
  exists a b, nth_error l k = Some a /\ nth_error l (S k) = Some b /\ nth_error (geno a) i <> nth_error (geno b) i.
(** tabu search on strings of [n] bits, with an indexed tabu list of tenure [h] and best-improvement
    aspiration *)
Definition bit_tabu {F} (lt : F -> F -> bool) (full : list bool -> F) (n h : nat) :=
  tabu_search (list bool) F nat nat lt (fun _ => 0 <? n) (fun _ => order_nh n) (eval_by_copy full bit_move) bit_move n _ (indexed_memories lt (Fixed h) n).
Lemma chain_nth {A} (R : A -> A -> Prop) l k a b : chain R l -> nth_error l k = Some a -> nth_error l (S k) = Some b -> R a b.
Proof. intros H. exact (H k a b). Qed.
(** A bit changed at turn [k] is not changed again before turn [k + h], unless that leads to a solution
    better than all those visited before. *)
Theorem C38_tenure : forall F (lt : F -> F -> bool) full n h C (c : continuator (sol (list bool) F) C) fuel s x cs ds r, strict_weak_order lt ->
  length (geno s) = n -> not_stale full s -> length (fst (t_mem _ _ _ _ _ x)) = n ->
  local_search full (bit_tabu lt full n h) c fuel s x cs ds = Ok r ->
  forall i k k', flipped (r_visited r) k i -> flipped (r_visited r) k' i -> k < k' ->
  k + h <= k' \/ forall j v w, j <= k' -> nth_error (r_visited r) j = Some v -> nth_error (r_visited r) (S k') = Some w -> lt (full (geno v)) (full (geno w)) = true.
Proof.
  intros F lt full n h C c fuel s x cs ds r HLT HL HN HM HR i k k' Fk Fk' Hk.
  assert (LI : leaves_solution (m_intensify _ _ _ _ (@indexed_memories (list bool) F lt (Fixed h) n))) by (intros s0 m0 d0 s1 m1 d1 E; injection E; auto).
  assert (LD : leaves_solution (m_diversify _ _ _ _ (@indexed_memories (list bool) F lt (Fixed h) n))) by (intros s0 m0 d0 s1 m1 d1 E; injection E; auto).
  assert (KE : keeps_evaluated (fun g : list bool => length g = n) full (m_intensify _ _ _ _ (@indexed_memories (list bool) F lt (Fixed h) n))) by (intros s0 m0 d0 s1 m1 d1 A1 A2 E; injection E as <- <- <-; auto).
  assert (KD : keeps_evaluated (fun g : list bool => length g = n) full (m_diversify _ _ _ _ (@indexed_memories (list bool) F lt (Fixed h) n))) by (intros s0 m0 d0 s1 m1 d1 A1 A2 E; injection E as <- <- <-; auto).
  destruct (ts_run _ _ _ _ _ _ lt (fun g => length g = n) (fun _ => seq 0 n) _ _ (fun _ => True) _ n 0 full _ _ c _ HLT (order_ok _ n) (bit_moves_ok full n) KE KD LI LD fuel s x cs ds r HL HN I HR) as (Hfirst & Hchain & _).
  assert (AP : forall k0, flipped (r_visited r) k0 i -> applied (list bool) F n bit_move (r_visited r) k0 i).
  { intros k0 (a & b & Ha & Hb & Hne). destruct (chain_nth _ _ _ _ _ Hchain Ha Hb) as (m & [(j & Hj & Hm & _)|(E & _)]); [|subst b; destruct Hne; auto].
    apply in_seq in Hj. assert (i = j) as ->.
    { destruct (Nat.eq_dec i j) as [|Hij]; auto. destruct Hne. 
      assert (Hja : j < length (geno a)).
      { destruct (Nat.lt_ge_cases j (length (geno a))) as [|G]; auto. exfalso. unfold bit_move in Hm. rewrite nth_error_ge in Hm by auto. discriminate. }
      destruct (bit_move_ok j (geno a) Hja) as (g' & E & _ & Hg & _). rewrite E in Hm. injection Hm as ->. rewrite Hg.
      destruct (Nat.eqb_spec i j); [contradiction|auto]. }
    split; [lia|]. exists a, b. auto. }
  assert (INJ : forall g i0 j g', length g = n -> i0 < n -> j < n -> bit_move i0 g = Ok g' -> bit_move j g = Ok g' -> i0 = j).
  { intros g i0 j g' L Hi Hj E1 E2. destruct (bit_move_ok i0 g) as (g1 & D1 & _ & B1 & _); [lia|]. destruct (bit_move_ok j g) as (g2 & D2 & _ & B2 & _); [lia|].
    rewrite D1 in E1. injection E1 as ->. rewrite D2 in E2. injection E2 as ->. specialize (B1 i0). specialize (B2 i0). rewrite Nat.eqb_refl in B1. destruct (Nat.eqb_spec i0 j); auto.
    rewrite B1 in B2. destruct (nth_error_in_some g i0) as [b Hb]; [lia|]. rewrite Hb in B2. destruct b; discriminate. }
  assert (MVS : forall g i0, length g = n -> i0 < n -> bit_move i0 g <> Ok g).
  { intros g i0 L Hi E. destruct (bit_move_ok i0 g) as (g1 & D1 & _ & B1 & _); [lia|]. rewrite D1 in E. injection E as ->. specialize (B1 i0). rewrite Nat.eqb_refl in B1.
    destruct (nth_error_in_some g i0) as [b Hb]; [lia|]. rewrite Hb in B1. destruct b; discriminate. }
  apply (it_run _ _ _ _ lt (fun g => length g = n) n _ _ (fun _ => True) _ n 0 full _ _ c HLT (order_ok _ n) (bit_moves_ok full n) INJ h MVS fuel s x cs ds r HL HN I HM HR k' i k); auto.
Qed.
Print Assumptions C38_tenure.
(** a run from 11 with fitness as in the table, two turns then stop: bit 0 is flipped at turn 0, and is
    tabu at turn 1 although flipping it back is better than flipping bit 1; with a tenure of 1 it is
    flipped back at once *)
Definition table (g : list bool) : nat := match g with [false; false] => 3 | [true; false] => 4 | [false; true] => 6 | _ => 7 end.
Definition after (n : nat) {T} : continuator T nat := Continuator (fun _ _ => 0) (fun _ k => (k <? n, S k)).
Definition start : ts (list bool) nat nat nat (list nat * sol (list bool) nat) := Ts _ _ _ _ _ 0 None false ([0; 0], Sol [] None) (Sol [] None).
Definition trace (h n : nat) := match local_search table (bit_tabu Nat.ltb table 2 h) (after n) 9 (Sol [true; true] None) start 0 [] with Ok r => map geno (r_visited r) | _ => [] end.
Example C38_tenure_ex : trace 2 3 = [[true; true]; [false; true]; [false; false]; [true; false]; [true; true]] /\
  trace 1 1 = [[true; true]; [false; true]; [true; true]] /\ length (fst (t_mem _ _ _ _ _ start)) = 2.
Proof. repeat split. Qed.
