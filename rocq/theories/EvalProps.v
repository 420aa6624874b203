(** C39 (incremental evaluations), C40 (doubly incremental UBQP), C50 (NK links), C53 (UBQP matrices). *)
From Coq Require Import List Arith Bool ZArith NArith QArith Lia Permutation Lqa.
From Verif Require Import Outcome Lib NeighModel NeighSpec NeighProofs BitsModel LsModel LsSpec EvalModel EvalSpec EvalProofs EvalRoyal EvalQap EvalSat EvalNk.
From Coq Require Import List.
Import ListNotations.
Open Scope nat_scope.

(** ** C39 OneMax *)
Lemma onemax_spec x : onemax_eval x = Ok (ones x).
Proof. apply onemax_eval_ok. Qed.
Theorem C39_onemax n : incremental_exact (bit_string n) one_bit bit_move eq onemax_eval onemax_incr.
Proof.
  intros x i f L Hi E. rewrite onemax_eval_ok in E. injection E as <-. destruct (onemax_incr_ok (Sol x (Some (ones x))) i) as (x' & E1 & E2); auto.
  exists x', (ones x'), (ones x'). rewrite onemax_eval_ok in E2 |- *. auto.
Qed.
Print Assumptions C39_onemax.
Theorem C39_onemax_bits n : incremental_exact (bit_string n) (fun x bits => some_bits x bits /\ NoDup bits) bits_move eq onemax_eval onemax_bits_incr.
Proof.
  intros x i f L [Hi Hn] E. rewrite onemax_eval_ok in E. injection E as <-. destruct (onemax_bits_ok (Sol x (Some (ones x))) i) as (x' & E1 & E2); auto.
  exists x', (ones x'), (ones x'). rewrite onemax_eval_ok in E2 |- *. auto.
Qed.
Print Assumptions C39_onemax_bits.
Theorem C39_onemax_value x : onemax_eval x = Ok (ones x).
Proof. exact (onemax_spec x). Qed.
Print Assumptions C39_onemax_value.
(** a bit given twice is counted twice although the move gives it back *)
Theorem C39_onemax_bits_repeated_outside : exists x bits x', some_bits x bits /\ bits_move bits x = Ok x' /\
  onemax_bits_incr (Sol x (Some (ones x))) bits <> onemax_eval x'.
Proof. exists [true], [0; 0], [true]. split; [intros b [<-|[<-|[]]]; cbn; lia|]. split; [reflexivity|]. vm_compute. discriminate. Qed.
Print Assumptions C39_onemax_bits_repeated_outside.

(** ** C39 Royal Road *)
Theorem C39_royal_value k x : k <> 0 -> royal_eval k x = Ok (complete_blocks k x).
Proof. exact (royal_eval_ok k x). Qed.
Print Assumptions C39_royal_value.
Theorem C39_royal n k : k <> 0 -> incremental_exact (bit_string n) (fun x i => i / k < length x / k) bit_move eq (royal_eval k) (royal_incr k).
Proof.
  intros Hk x i f L Hi E. rewrite royal_eval_ok in E by auto. injection E as <-. destruct (royal_incr_ok k (Sol x (Some (complete_blocks k x))) i) as (x' & E1 & E2); auto.
  exists x', (complete_blocks k x'), (complete_blocks k x'). rewrite royal_eval_ok in E2 |- * by auto. auto.
Qed.
Print Assumptions C39_royal.
Corollary C39_royal_whole n k m : k <> 0 -> n = m * k -> incremental_exact (bit_string n) one_bit bit_move eq (royal_eval k) (royal_incr k).
Proof.
  intros Hk Hn x i f L Hi E. apply (C39_royal n k Hk x i f); auto. unfold bit_string in L. unfold one_bit in Hi. rewrite L, Hn, Nat.div_mul by auto. apply Nat.div_lt_upper_bound; [auto|]. nia.
Qed.
(** a bit of the tail, after the last whole block, is read out of bounds *)
Theorem C94_royal_tail_refuted : exists k x i, k <> 0 /\ i < length x /\ royal_incr k (Sol x (Some (complete_blocks k x))) i = UB.
Proof. exists 2, [true; true; true], 2. split; [lia|]. split; [cbn; lia|]. reflexivity. Qed.
Print Assumptions C94_royal_tail_refuted.

(** ** C39 UBQP *)
Lemma ubqp_exact n q : square_matrix n q -> incremental_exact (bit_string n) one_bit bit_move eq (ubqp_eval n q) (ubqp_incr n q).
Proof.
  intros SQ x i f L Hi E. unfold bit_string in L. unfold one_bit in Hi. rewrite (ubqp_eval_uval n q SQ) in E by auto. injection E as <-. destruct (ubqp_incr_ok n q SQ (Sol x (Some (uval n q x))) i) as (x' & E1 & E2); auto; [cbn; lia|].
  assert (L' : length x' = n) by (destruct (flip_ok x i) as (x1 & F & Lx & _); [lia|]; cbn [geno] in E1; rewrite F in E1; injection E1 as <-; lia).
  exists x', (uval n q x'), (uval n q x'). rewrite (ubqp_eval_uval n q SQ) in E2 |- * by auto. auto.
Qed.
Theorem C39_ubqp n q : square_matrix n q -> incremental_exact (bit_string n) one_bit bit_move eq (ubqp_eval n q) (ubqp_incr n q).
Proof. exact (ubqp_exact n q). Qed.
Print Assumptions C39_ubqp.
Theorem C39_ubqp_bits n q : square_matrix n q -> incremental_exact (bit_string n) some_bits bits_move eq (ubqp_eval n q)
  (fun s bits => let! (v, _) := ubqp_bits_incr n q s bits in Ok v).
Proof.
  intros SQ x bits f L Hi E. unfold bit_string in L. unfold some_bits in Hi. rewrite (ubqp_eval_uval n q SQ) in E by auto. injection E as <-.
  destruct (ubqp_bits_ok n q SQ (Sol x (Some (uval n q x))) bits) as (x' & v & E1 & E2 & E3); auto; [cbn; intros; rewrite <- L; auto|].
  exists x', v, v. rewrite E3. auto.
Qed.
Print Assumptions C39_ubqp_bits.
Theorem C39_ubqp_bits_restores n q x f bits v x' : square_matrix n q -> length x = n -> (forall b, In b bits -> b < n) -> ubqp_eval n q x = Ok f ->
  ubqp_bits_incr n q (Sol x (Some f)) bits = Ok (v, x') -> x' = x.
Proof.
  intros SQ L Hb E H. rewrite (ubqp_eval_uval n q SQ) in E by auto. injection E as <-. destruct (ubqp_bits_ok n q SQ (Sol x (Some (uval n q x))) bits) as (y & w & _ & _ & E3); auto. rewrite H in E3. injection E3 as _ ->. reflexivity.
Qed.
Print Assumptions C39_ubqp_bits_restores.

(** ** C39 QAP *)
Theorem C39_qap n a b : square_matrix n a -> square_matrix n b -> incremental_exact (assignment n) two_positions (swap_move nat) eq (qap_eval n a b) (qap_incr n a b).
Proof.
  intros SA SB x [i j] f HA (Hi & Hj & Hij) E. cbn [fst snd] in *. destruct HA as [L HA]. rewrite (qap_eval_ok n a b SA SB) in E by (split; auto). injection E as <-.
  destruct (qap_incr_ok n a b SA SB (Sol x (Some (assignment_cost n a b x))) i j) as (x' & E1 & E2 & E3); auto; try (cbn; lia). { split; auto. }
  exists x', (assignment_cost n a b x'), (assignment_cost n a b x'). rewrite (qap_eval_ok n a b SA SB) in E3 |- * by auto. auto.
Qed.
Print Assumptions C39_qap.
Theorem C39_qap_value n a b p : square_matrix n a -> square_matrix n b -> assignment n p -> qap_eval n a b p = Ok (assignment_cost n a b p).
Proof. exact (fun SA SB => qap_eval_ok n a b SA SB p). Qed.
Print Assumptions C39_qap_value.

(** ** C39 MaxSAT *)
Theorem C39_maxsat_value n clauses x : cnf n clauses -> length x = n -> sat_eval clauses x = Ok (satisfied clauses x).
Proof. exact (fun H => sat_eval_ok n clauses H x). Qed.
Print Assumptions C39_maxsat_value.
Lemma maxsat_exact n clauses vs : cnf n clauses -> (forall l, In l (nth 0 clauses []) -> (0 < l)%Z) -> occ_random clauses n = Ok vs ->
  incremental_exact (bit_string n) one_bit bit_move eq (sat_eval clauses) (sat_incr clauses vs).
Proof.
  intros C P Ev x i f L Hi E. unfold bit_string in L. unfold one_bit in Hi. rewrite (sat_eval_ok n clauses C) in E by auto. injection E as <-.
  destruct (sat_incr_ok n clauses C P vs (Sol x (Some (satisfied clauses x))) i) as (x' & E1 & E2); auto; [cbn; lia|].
  assert (L' : length x' = n) by (destruct (flip_ok x i) as (x1 & F & Lx & _); [lia|]; cbn [geno] in E1; rewrite F in E1; injection E1 as <-; lia).
  exists x', (satisfied clauses x'), (satisfied clauses x'). rewrite (sat_eval_ok n clauses C) in E2 |- * by auto. auto.
Qed.
(** random instances whose first clause has no negated literal *)
Theorem C94_maxsat_partial n m k ds clauses ds' vs : random_sat n m k ds = Ok (clauses, ds') -> (forall l, In l (nth 0 clauses []) -> (0 < l)%Z) ->
  occ_random clauses n = Ok vs -> incremental_exact (bit_string n) one_bit bit_move eq (sat_eval clauses) (sat_incr clauses vs).
Proof. intros H. apply maxsat_exact. eapply random_sat_ok; eauto. Qed.
Print Assumptions C94_maxsat_partial.
(** instances read from a file, without negated literals, no variable twice in a clause *)
Theorem C94_maxsat_file_partial n clauses vs : cnf n clauses -> (forall c l, In c clauses -> In l c -> (0 < l)%Z) -> occ_file clauses n = Ok vs ->
  incremental_exact (bit_string n) one_bit bit_move eq (sat_eval clauses) (sat_incr clauses vs).
Proof.
  intros C P Ev. rewrite occ_file_pos in Ev by auto. apply maxsat_exact; auto. intros l Hl. destruct clauses as [|c cs]; [destruct Hl|]. apply (P c); [left; auto|auto].
Qed.
Print Assumptions C94_maxsat_file_partial.
(** a random instance: 2 variables, 1 clause of 1 literal, negated *)
Theorem C94_maxsat_first_clause_refuted : exists ds clauses ds' vs x i x', random_sat 2 1 1 ds = Ok (clauses, ds') /\ occ_random clauses 2 = Ok vs /\
  length x = 2 /\ i < 2 /\ bit_move i x = Ok x' /\ sat_incr clauses vs (Sol x (Some (satisfied clauses x))) i <> sat_eval clauses x'.
Proof.
  exists [0; 1], [[-1]]%Z, [], [[]; [0]; []]%Z, [false; false], 0, [true; false]. repeat (split; [first [reflexivity|cbn; lia]|]). vm_compute. discriminate.
Qed.
Print Assumptions C94_maxsat_first_clause_refuted.
(** a file instance: the second clause is a negated variable *)
Theorem C94_maxsat_file_refuted : exists clauses vs x i x', cnf 2 clauses /\ (forall l, In l (nth 0 clauses []) -> (0 < l)%Z) /\ occ_file clauses 2 = Ok vs /\
  length x = 2 /\ i < 2 /\ bit_move i x = Ok x' /\ sat_incr clauses vs (Sol x (Some (satisfied clauses x))) i <> sat_eval clauses x'.
Proof.
  exists [[1]; [-2]]%Z, [[]; [0]; [1]]%Z, [false; false], 1, [false; true]. split; [|split].
  - intros c [<-|[<-|[]]]; (split; [repeat constructor; intros []|]); intros l [<-|[]]; lia.
  - intros l [<-|[]]. lia.
  - repeat (split; [first [reflexivity|cbn; lia]|]). vm_compute. discriminate.
Qed.
Print Assumptions C94_maxsat_file_refuted.
(** random instances: [m] clauses of [k] different variables; every draw sequence gives one when k <= n *)
Theorem C39_maxsat_instances n m k ds clauses ds' : random_sat n m k ds = Ok (clauses, ds') ->
  length clauses = m /\ cnf n clauses /\ forall c, In c clauses -> length c = k.
Proof. exact (random_sat_ok n m k ds clauses ds'). Qed.
Print Assumptions C39_maxsat_instances.
Theorem C39_maxsat_instances_total n m k ds : k <= n -> 2 * k * m <= length ds -> exists clauses ds', random_sat n m k ds = Ok (clauses, ds').
Proof. exact (random_sat_total n m k ds). Qed.
Print Assumptions C39_maxsat_instances_total.

(** ** C39 NK landscapes *)
Theorem C39_nk_value n k ls ts x : links_ok n k ls -> tables_ok n k ts -> length x = n -> exists v, nk_eval (Nk n k ls ts) x = Ok v /\ (v == nk_value n ls ts x)%Q.
Proof. exact (fun A B => nk_eval_ok n k ls ts A B x). Qed.
Print Assumptions C39_nk_value.
Theorem C39_nk n k ls ts inv : links_ok n k ls -> tables_ok n k ts -> inverse_links (Nk n k ls ts) = Ok inv ->
  incremental_exact (bit_string n) one_bit bit_move Qeq (nk_eval (Nk n k ls ts)) (nk_incr (Nk n k ls ts) inv).
Proof.
  intros A B Ei x i f L Hi E. unfold bit_string in L. unfold one_bit in Hi. destruct (nk_eval_ok n k ls ts A B x L) as (v & E0 & Hv). rewrite E in E0. injection E0 as <-.
  destruct (nk_incr_ok n k ls ts A B inv (Sol x (Some f)) i f Ei) as (x' & w & w' & E1 & E2 & E3 & E4); auto; [cbn; lia|]. exists x', w', w. auto.
Qed.
Print Assumptions C39_nk.
Theorem C39_nk_bits n k ls ts inv : links_ok n k ls -> tables_ok n k ts -> inverse_links (Nk n k ls ts) = Ok inv ->
  incremental_exact (bit_string n) some_bits bits_move Qeq (nk_eval (Nk n k ls ts)) (fun s bits => let! (v, _) := nk_bits_incr (Nk n k ls ts) inv s bits in Ok v).
Proof.
  intros A B Ei x i f L Hi E. unfold bit_string in L. unfold some_bits in Hi. destruct (nk_eval_ok n k ls ts A B x L) as (v & E0 & Hv). rewrite E in E0. injection E0 as <-.
  destruct (nk_bits_ok n k ls ts A B inv (Sol x (Some f)) i f Ei) as (x' & w & w' & E1 & E2 & E3 & E4); auto; [cbn; intros; rewrite <- L; auto|]. exists x', w', w. rewrite E2. auto.
Qed.
Print Assumptions C39_nk_bits.
Theorem C39_nk_inverse_links n k ls ts : links_ok n k ls -> tables_ok n k ts -> exists inv, inverse_links (Nk n k ls ts) = Ok inv /\
  length inv = n /\ forall b i, b < n -> In i (nth b inv []) <-> i < n /\ In b (nth i ls []).
Proof.
  intros A B. destruct (inverse_ok n k ls ts A) as (inv & E & L & H). exists inv. split; auto. split; auto. intros b i Hb. rewrite H by auto. rewrite in_map_iff. split.
  - intros ([i' l] & <- & Hin). apply filter_In in Hin as [Hin El]. cbn [fst snd] in *. apply Nat.eqb_eq in El. subst l. unfold link_pairs in Hin. apply in_flat_map in Hin as (j & Hj & Hin). apply in_map_iff in Hin as (l & El & Hl). injection El as -> ->. apply in_seq in Hj. split; [lia|auto].
  - intros [Hi Hl]. exists (i, b). split; auto. apply filter_In. split; [|cbn; apply Nat.eqb_refl]. apply in_flat_map. exists i. split; [apply in_seq; lia|]. apply in_map. auto.
Qed.
Print Assumptions C39_nk_inverse_links.
(** a bit linked twice: N = 2, K = 2, consecutive links *)
Theorem C39_nk_repeated_links_outside : exists ts inv x i x', tables_ok 2 2 ts /\ let p := Nk 2 2 (consecutive_tables 2 2) ts in
  inverse_links p = Ok inv /\ length x = 2 /\ i < 2 /\ bit_move i x = Ok x' /\
  exists f v v', nk_eval p x = Ok f /\ nk_eval p x' = Ok v /\ nk_incr p inv (Sol x (Some f)) i = Ok v' /\ ~ (v' == v)%Q.
Proof.
  exists [[1; 2; 3; 4; 5; 6; 7; 8]; [1; 2; 3; 4; 5; 6; 7; 9]]%Q. eexists. exists [false; false], 0, [true; false].
  split; [split; [reflexivity|intros t [<-|[<-|[]]]; reflexivity]|]. split; [reflexivity|]. split; [reflexivity|]. split; [lia|]. split; [reflexivity|].
  eexists _, _, _. split; [reflexivity|]. split; [reflexivity|]. split; [reflexivity|]. vm_compute. discriminate.
Qed.
Print Assumptions C39_nk_repeated_links_outside.
(** concrete cases *)
Example C39_example_ubqp : square_matrix 2 [[1; 0]; [3; -2]]%Z /\ ubqp_eval 2 [[1; 0]; [3; -2]]%Z [true; false] = Ok 1%Z /\
  ubqp_incr 2 [[1; 0]; [3; -2]]%Z (Sol [true; false] (Some 1%Z)) 1 = Ok 2%Z /\ ubqp_eval 2 [[1; 0]; [3; -2]]%Z [true; true] = Ok 2%Z.
Proof. repeat split; repeat constructor. Qed.
Definition flows : list (list Z) := [[0; 1; 2]; [1; 0; 3]; [2; 3; 0]]%Z.
Definition dists : list (list Z) := [[0; 5; 1]; [5; 0; 2]; [1; 2; 0]]%Z.
Example C39_example_qap : square_matrix 3 flows /\ square_matrix 3 dists /\ assignment 3 [0; 1; 2] /\ two_positions [0; 1; 2] (0, 2) /\
  qap_eval 3 flows dists [0; 1; 2] = Ok 26%Z /\ qap_incr 3 flows dists (Sol [0; 1; 2] (Some 26%Z)) (0, 2) = Ok 38%Z /\ qap_eval 3 flows dists [2; 1; 0] = Ok 38%Z.
Proof.
  split; [split; [reflexivity|repeat constructor]|]. split; [split; [reflexivity|repeat constructor]|]. split; [split; [reflexivity|intros k [<-|[<-|[<-|[]]]]; lia]|].
  split; [unfold two_positions; cbn; repeat split; lia|]. repeat split.
Qed.
Example C39_example_maxsat : exists c vs, random_sat 3 2 2 [0; 0; 1; 0; 2; 1; 0; 1] = Ok (c, []) /\ c = [[1; 2]; [-1; -3]]%Z /\ occ_random c 3 = Ok vs /\
  (forall l, In l (nth 0 c []) -> (0 < l)%Z) /\ sat_eval c [true; true; true] = Ok 1%Z /\ sat_incr c vs (Sol [true; true; true] (Some 1%Z)) 2 = Ok 2%Z /\ sat_eval c [true; true; false] = Ok 2%Z.
Proof. exists [[1; 2]; [-1; -3]]%Z. eexists. split; [reflexivity|]. split; [reflexivity|]. split; [reflexivity|]. split; [intros l [<-|[<-|[]]]; lia|]. repeat split. Qed.
Example C39_example_nk : links_ok 2 1 (consecutive_tables 2 1) /\ tables_ok 2 1 [[0; 1; 2; 3]; [4; 5; 6; 8]]%Q.
Proof. split; [apply consecutive_tables_ok; lia|]. split; [reflexivity|intros t [<-|[<-|[]]]; reflexivity]. Qed.

(** ** the incremental evaluations can be used by the searches of C36, C38 and C69: they meet what those
    theorems ask of the neighbor evaluation *)
Theorem C39_in_searches n :
  moves_ok (bit_string n) (fun _ => seq 0 n) ones onemax_incr bit_move /\
  (forall q, lower n q -> moves_ok (bit_string n) (fun _ => seq 0 n) (quadratic n q) (ubqp_incr n q) bit_move) /\
  (forall a b, square_matrix n a -> square_matrix n b -> moves_ok (assignment n) (fun _ => filter (fun ij => negb (fst ij =? snd ij)) (list_prod (seq 0 n) (seq 0 n))) (assignment_cost n a b) (qap_incr n a b) (swap_move nat)).
Proof.
  split; [|split].
  - intros x i L Hi. apply in_seq in Hi. unfold bit_string in *. destruct (C39_onemax n x i (ones x) L) as (x' & v & v' & E1 & E2 & E3 & ->); [unfold one_bit; lia|apply onemax_spec|].
    rewrite onemax_spec in E2. injection E2 as <-. exists x'. split; auto. split; auto. destruct (flip_ok x i) as (x1 & F & Lx & _); [lia|]. rewrite F in E1. injection E1 as <-. lia.
  - intros q HL x i L Hi. apply in_seq in Hi. unfold bit_string in *. destruct (ubqp_exact n q (proj1 HL) x i (quadratic n q x) L) as (x' & v & v' & E1 & E2 & E3 & ->); [unfold one_bit; lia|apply ubqp_eval_quadratic; auto|].
    assert (L' : length x' = n) by (destruct (flip_ok x i) as (x1 & F & Lx & _); [lia|]; rewrite F in E1; injection E1 as <-; lia).
    rewrite ubqp_eval_quadratic in E2 by auto. injection E2 as <-. exists x'. auto.
  - intros a b SA SB p [i j] HA Hin. apply filter_In in Hin as [Hin Hne]. apply in_prod_iff in Hin as [Hi Hj]. apply in_seq in Hi. apply in_seq in Hj. cbn [fst snd] in Hne. destruct (Nat.eqb_spec i j) as [|Hij]; [discriminate|].
    destruct (qap_incr_ok n a b SA SB (Sol p (Some (assignment_cost n a b p))) i j) as (p' & E1 & E2 & E3); auto; try lia. exists p'. split; auto. split; auto. rewrite E3. apply qap_eval_ok; auto.
Qed.
Print Assumptions C39_in_searches.

(** ** C40 *)
Definition moves_of (turns : list (option nat)) : list nat := flat_map (fun t => match t with Some i => [i] | None => [] end) turns.
Theorem C40_deltas n q turns x d moved : square_matrix n q -> length x = n -> length (deltaFitness d) = n -> firstEval d = true -> (forall i, In (Some i) turns -> i < n) ->
  exists x' d', dincr_search n q turns x moved d = Ok (x', d') /\ bits_move (moves_of turns) x = Ok x' /\
    forall i y f v, i < n -> bit_move i x' = Ok y -> ubqp_eval n q x' = Ok f -> ubqp_eval n q y = Ok v ->
      nth_error (deltaFitness d') i = Some (v - f)%Z /\ dincr_eval d' (Sol x' (Some f)) i = Ok v.
Proof.
  intros SQ L Ld F Hi. destruct (search_exact n q SQ turns x x moved d L Ld Hi (or_introl F)) as (x' & d' & E & L' & [Lt HT] & M). exists x', d'. split; auto. split; auto.
  intros i y f v Hin Ey Ef Ev. destruct (flip_ok x' i ltac:(lia)) as (y1 & E1 & L1 & Hy & _). rewrite E1 in Ey. injection Ey as ->.
  rewrite (ubqp_eval_uval n q SQ) in Ef, Ev by lia. injection Ef as <-. injection Ev as <-.
  assert (En : nth_error (deltaFitness d') i = Some (uval n q y - uval n q x')%Z).
  { rewrite (nth_error_nth' _ 0%Z) by lia. f_equal. rewrite HT by auto. rewrite (uval_flip n q x' y i Hin Hy). lia. }
  split; auto. unfold dincr_eval, gene. rewrite En. cbn [fitness fit rbind of_opt]. f_equal. lia.
Qed.
Print Assumptions C40_deltas.
Example C40_example : dincr_search 2 [[1; 0]; [3; -2]]%Z [Some 0; None; Some 1] [false; true] None (Dincr true [77; 99]%Z) = Ok ([true; false], Dincr false [-1; 1]%Z).
Proof. reflexivity. Qed.
(** a second search from another solution, without init(): the table is that of the first *)
Theorem C40_second_run_outside : exists n q x y d x' d', square_matrix n q /\ length x = n /\ length y = n /\ length (deltaFitness d) = n /\
  dincr_search n q [] x None (dincr_init d) = Ok (x', d') /\
  exists y' d2, dincr_search n q [] y None d' = Ok (y', d2) /\ dincr_eval d2 (Sol y (Some (quadratic n q y))) 0 <> ubqp_eval n q (map negb y).
Proof.
  exists 1, [[5]]%Z, [false], [true], (Dincr true [0]%Z). eexists _, _. split; [split; [reflexivity|repeat constructor]|]. split; [reflexivity|]. split; [reflexivity|]. split; [reflexivity|]. split; [reflexivity|].
  eexists _, _. split; [reflexivity|]. vm_compute. discriminate.
Qed.
Print Assumptions C40_second_run_outside.
(** with init() the second search is exact again *)
Theorem C40_init n q turns x d moved : square_matrix n q -> length x = n -> length (deltaFitness d) = n -> (forall i, In (Some i) turns -> i < n) ->
  exists x' d', dincr_search n q turns x moved (dincr_init d) = Ok (x', d') /\ bits_move (moves_of turns) x = Ok x' /\
    forall i y f v, i < n -> bit_move i x' = Ok y -> ubqp_eval n q x' = Ok f -> ubqp_eval n q y = Ok v -> dincr_eval d' (Sol x' (Some f)) i = Ok v.
Proof.
  intros SQ L Ld Hi. destruct (C40_deltas n q turns x (dincr_init d) moved SQ L Ld eq_refl Hi) as (x' & d' & E & M & H). exists x', d'. split; auto. split; auto. intros i y f v Hin Ey Ef Ev. apply (H i y f v Hin Ey Ef Ev).
Qed.
Print Assumptions C40_init.

(** ** C50 *)
Theorem C50_random n k ds ls ds' : random_tables n k ds = Ok (ls, ds') -> links_ok n k ls /\ forall i, i < n -> hd_error (nth i ls []) = Some i.
Proof. exact (random_tables_ok n k ds ls ds'). Qed.
Print Assumptions C50_random.
Theorem C50_random_total n k ds : k < n -> n * S k <= length ds -> exists ls ds', random_tables n k ds = Ok (ls, ds').
Proof. exact (random_tables_total n k ds). Qed.
Print Assumptions C50_random_total.
Theorem C50_consecutive n k : k < n -> links_ok n k (consecutive_tables n k) /\ forall i j, i < n -> j <= k -> nth j (nth i (consecutive_tables n k) []) 0 = (i + j) mod n.
Proof.
  intros Hk. split; [apply consecutive_tables_ok; auto|]. intros i j Hi Hj. unfold consecutive_tables.
  rewrite (nth_indep _ [] (map (fun j => (0 + j) mod n) (seq 0 (S k)))) by (rewrite map_length, seq_length; auto). rewrite (map_nth (fun i => map (fun j => (i + j) mod n) (seq 0 (S k)))), seq_nth by auto.
  rewrite (nth_indep _ 0 ((i + 0) mod n)) by (rewrite map_length, seq_length; lia). rewrite (map_nth (fun j => (0 + i + j) mod n)), seq_nth by lia. reflexivity.
Qed.
Print Assumptions C50_consecutive.
(** whatever the drawing table, it is given back as it was *)
Theorem C50_table_restored n k i tab ds l tab' ds' : length tab = n -> NoDup tab -> i < n -> choose n k i tab ds = Ok (l, tab', ds') ->
  tab' = tab /\ length l = S k /\ NoDup l /\ (forall v, In v l -> In v tab) /\ hd_error l = nth_error tab i.
Proof. exact (choose_ok n k i tab ds l tab' ds'). Qed.
Print Assumptions C50_table_restored.
(** K >= N: undefined behaviour, or repeated links *)
Theorem C50_too_many_links_outside : exists n k ds, n * S k <= length ds /\ random_tables n k ds = UB /\ exists l, In l (consecutive_tables n k) /\ ~ NoDup l.
Proof.
  exists 2, 2, [1; 0; 2; 1; 0; 1]. split; [cbn; lia|]. split; [reflexivity|]. exists [0; 1; 0]. split; [left; reflexivity|]. intros H. inversion H as [|? ? H1 _]; subst. apply H1. right. left. reflexivity.
Qed.
Print Assumptions C50_too_many_links_outside.
Example C50_example : random_tables 4 2 [1; 0; 2; 1; 0; 1; 2; 2] = Ok ([[0; 1; 3]; [1; 2; 3]; [2; 0; 1]; [3; 2; 0]], []).
Proof. reflexivity. Qed.

(** ** C53 *)
Theorem C53_normalised n q : square_matrix n q -> exists l, ubqp_normalise n q = Ok l /\ lower n l /\ forall x, quadratic n l x = quadratic n q x.
Proof. exact (normalise_ok n q). Qed.
Print Assumptions C53_normalised.
Theorem C53_evaluated n q l x : square_matrix n q -> ubqp_normalise n q = Ok l -> length x = n -> ubqp_eval n l x = Ok (quadratic n q x).
Proof. intros SQ E L. destruct (normalise_ok n q SQ) as (l' & E' & HL & H). rewrite E in E'. injection E' as <-. rewrite <- H. apply ubqp_eval_quadratic; auto. Qed.
Print Assumptions C53_evaluated.
Example C53_example : ubqp_normalise 2 [[1; 2]; [3; -4]]%Z = Ok [[1; 0]; [5; -4]]%Z /\ quadratic 2 [[1; 2]; [3; -4]]%Z [true; true] = 2%Z.
Proof. split; reflexivity. Qed.
