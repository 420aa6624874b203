(** C177, C178: custom topologies, the table of the islands, the shared continuator. *)
From Coq Require Import List Arith Lia Bool ZArith QArith Lqa Sorted.
From Verif Require Import Lib Outcome ReplModel ReplProofs OrderSpec AlgoModel AlgoProofs CustModel CustSpec CustProofs.
From Coq Require Import List.
Import ListNotations.
Close Scope Q_scope.
Open Scope nat_scope.

(** ** C177 *)
(** a file is accepted exactly when its lines with numbers form a square matrix and the first line is one of them; the topology then holds these numbers, in order; any other file throws *)
Theorem C177_accepted_files {T U} (conv : T -> U) (lines : list (list (token T))) (m : list (list U)) :
  read_matrix conv lines = Ok m <->
  m = filter (fun r => negb (length r =? 0)) (map (fun l => map conv (read_line l)) lines) /\ square m /\ (m = [] \/ exists l r, lines = l :: r /\ read_line l <> []).
Proof. exact (read_matrix_ok T U conv lines m). Qed.
Theorem C177_other_files_throw {T U} (conv : T -> U) (lines : list (list (token T))) :
  (forall m, read_matrix conv lines <> Ok m) -> read_matrix conv lines = Throw.
Proof. intros H. destruct (read_matrix_throw T U conv lines) as [[m E]|E]; auto. elim (H m E). Qed.
Theorem C177_booleans (lines : list (list (token Z))) m i j b : boolean_topology lines = Ok m -> entry_is m i j b ->
  exists l x, In l lines /\ nth_error (read_line l) j = Some x /\ (b = true <-> x <> 0%Z).
Proof.
  intros H (r & Hr & Hb). apply (read_matrix_ok Z bool) in H as (-> & _). apply nth_error_In in Hr. unfold rows in Hr. apply filter_In in Hr as [Hr _]. apply in_map_iff in Hr as (l & <- & Hl).
  rewrite nth_error_map in Hb. destruct (nth_error (read_line l) j) as [x|] eqn:E; [|discriminate]. injection Hb as <-. exists l, x. split; auto. split; auto. unfold to_bool. destruct (Z.eqb_spec x 0); cbn; split; congruence.
Qed.
Theorem C177_probabilities (lines : list (list (token Q))) m i j p : stochastic_topology lines = Ok m -> entry_is m i j p ->
  (0 <= p <= 1)%Q /\ exists l x, In l lines /\ nth_error (read_line l) j = Some x /\ ((0 <= x <= 1)%Q -> p = x) /\ ((x < 0)%Q -> (p == 0)%Q) /\ ((1 < x)%Q -> (p == 1)%Q).
Proof.
  intros H (r & Hr & Hb). apply (read_matrix_ok Q Q) in H as (-> & _). apply nth_error_In in Hr. unfold rows in Hr. apply filter_In in Hr as [Hr _]. apply in_map_iff in Hr as (l & <- & Hl).
  rewrite nth_error_map in Hb. destruct (nth_error (read_line l) j) as [x|] eqn:E; [|discriminate]. injection Hb as <-. destruct (clip_range x) as [H1 H2]. split; auto. exists l, x. split; auto. split; auto. split; auto.
  unfold clip. destruct (qlt x 0) eqn:E1; [apply qlt_lt in E1|apply qlt_ge in E1]; [split; intros; lra|]. destruct (qlt 1 x) eqn:E2; [apply qlt_lt in E2|apply qlt_ge in E2]; split; intros; lra.
Qed.
(** the numbers of a line are those before the first word that is not a number *)
Theorem C177_line_numbers {T} (l : list (token T)) (xs : list T) :
  read_line l = xs <-> exists rest, l = map Num xs ++ rest /\ (rest = [] \/ exists r, rest = Other :: r).
Proof.
  revert xs. induction l as [|[x|] l IH]; intros xs; cbn [read_line].
  - split; [intros <-; exists []; auto|]. intros (rest & E & _). destruct xs; [auto|discriminate].
  - split.
    + intros <-. destruct (proj1 (IH _) eq_refl) as (rest & E & R). exists rest. split; auto. cbn. f_equal. exact E.
    + intros (rest & E & R). destruct xs as [|y xs]; cbn in E.
      * destruct R as [->|[r ->]]; discriminate.
      * injection E as -> E. f_equal. apply IH. eauto.
  - split; [intros <-; exists (Other :: l); eauto|]. intros (rest & E & _). destruct xs; [auto|discriminate].
Qed.
Example C177_files_ex : boolean_topology [[Num 0%Z; Num 1%Z]; []; [Num 7%Z; Num 0%Z; Other; Num 4%Z]; [Other]] = Ok [[false; true]; [true; false]] /\
  boolean_topology [[Num 0%Z; Num 1%Z]; [Num 1%Z]] = Throw /\ boolean_topology [[Num 0%Z; Num 1%Z]] = Throw /\
  stochastic_topology [[Num (-1)%Q; Num (1#2)%Q]; [Num 3%Q; Num 0%Q]] = Ok [[0; 1#2]; [1; 0]]%Q.
Proof. vm_compute. auto. Qed.
(** the neighbours of an island: each one once, in increasing order *)
Theorem C177_boolean_neighbors m id : square m -> id < length m ->
  exists l, boolean_neighbors m id = Ok l /\ StronglySorted lt l /\ forall j, In j l <-> entry_is m id j true.
Proof.
  intros Sq Hid. destruct (neighbors_from_ok m id Sq Hid (length m) 0) as (l & E & So & Hl); [lia|]. exists l. split; auto. split; auto. intros j. rewrite Hl. split; [intros [_ H]; auto|]. intros H. split; auto. split; [lia|].
  destruct H as (r & Hr & Hj). cbn. rewrite <- (Sq r) by (eapply nth_error_In; eauto). apply nth_error_Some. congruence.
Qed.
Theorem C177_stochastic_neighbors m id us : square m -> id < length m -> length m <= length us ->
  exists l, stochastic_neighbors m id us = Ok l /\ StronglySorted lt l /\
  (forall j, In j l <-> exists p u, entry_is m id j p /\ nth_error us j = Some u /\ (u < p)%Q) /\
  (Forall (fun u => (0 <= u < 1)%Q) us -> (forall j p, entry_is m id j p -> (1 <= p)%Q -> In j l) /\ (forall j p, entry_is m id j p -> (p <= 0)%Q -> ~ In j l)).
Proof.
  intros Sq Hid Hu. destruct (drawn_from_ok m id Sq Hid (length m) 0 us) as (l & E & So & Hl); [lia|lia|]. exists l. split; auto. split; auto.
  assert (B : forall j p, entry_is m id j p -> j < length m) by (intros j p (r & Hr & Hj); rewrite <- (Sq r) by (eapply nth_error_In; eauto); apply nth_error_Some; congruence).
  assert (K : forall j, In j l <-> exists p u, entry_is m id j p /\ nth_error us j = Some u /\ (u < p)%Q).
  { intros j. rewrite Hl, Nat.sub_0_r. split; [intros [_ H]; auto|]. intros (p & u & H & R). split; [split; [lia|cbn; eauto]|eauto]. }
  split; auto. intros Fu. rewrite Forall_forall in Fu. split; intros j p Hp Hv.
  - apply K. destruct (nth_error_in_some us j) as [u Eu]; [apply B in Hp; lia|]. exists p, u. split; auto. split; auto. specialize (Fu u (nth_error_In _ _ Eu)). lra.
  - intros Hj. apply K in Hj as (p' & u & Hp' & Eu & Hlt). rewrite (entry_fun _ _ _ _ _ Hp' Hp) in Hlt. specialize (Fu u (nth_error_In _ _ Eu)). lra.
Qed.
Example C177_neighbors_ex : boolean_neighbors [[false; true; true]; [true; false; false]; [false; false; false]] 0 = Ok [1; 2] /\
  stochastic_neighbors [[0; 1; 1#2]; [1; 0; 0]; [0; 0; 0]]%Q 0 [0; 9#10; 6#10]%Q = Ok [1] /\
  square [[0; 1; 1#2]; [1; 0; 0]; [0; 0; 0]]%Q.
Proof. split; [reflexivity|]. split; [reflexivity|]. intros r [<-|[<-|[<-|[]]]]; reflexivity. Qed.
(** isolating a node clears its row and its column and nothing else *)
Theorem C177_isolate {U} (zero : U) m id : square m -> id < length m ->
  exists m', isolate zero m id = Ok m' /\ square m' /\ length m' = length m /\
  forall i j x, entry_is m' i j x <-> i < length m /\ j < length m /\ (((i = id \/ j = id) /\ x = zero) \/ (i <> id /\ j <> id /\ entry_is m i j x)).
Proof. exact (isolate_ok zero m id). Qed.
Theorem C177_isolated_has_no_neighbor m id m' : square m -> id < length m -> isolate false m id = Ok m' ->
  boolean_neighbors m' id = Ok [] /\ forall i l, boolean_neighbors m' i = Ok l -> i < length m -> ~ In id l.
Proof.
  intros Sq Hid E. destruct (isolate_ok false m id Sq Hid) as (m1 & E1 & S1 & L1 & H1). rewrite E in E1. injection E1 as <-. split.
  - destruct (C177_boolean_neighbors m' id S1) as (l & El & _ & Hl); [lia|]. rewrite El. destruct l as [|j l]; auto. assert (Hj : In j (j :: l)) by (cbn; auto). apply Hl, H1 in Hj as (_ & _ & [[_ ?]|(? & _)]); congruence.
  - intros i l El Hi Hj. destruct (C177_boolean_neighbors m' i S1) as (l' & El' & _ & Hl); [lia|]. rewrite El in El'. injection El' as <-. apply Hl, H1 in Hj as (_ & _ & [[_ ?]|(_ & ? & _)]); congruence.
Qed.
Example C177_isolate_ex : isolate false [[false; true; true]; [true; true; true]; [true; true; false]] 1 = Ok [[false; false; true]; [false; false; false]; [true; false; false]].
Proof. reflexivity. Qed.
(** the table of distinct islands gives them the identifiers 0, 1, 2, …; both directions agree *)
Theorem C177_table islands : NoDup islands ->
  inverse (get (right (create_table islands))) (get (left (create_table islands))) /\ size (create_table islands) = length islands /\
  forall id, get (right (create_table islands)) id = nth_error islands id.
Proof.
  intros N. destruct (create_from_ok islands (Bimap [] []) 0 N) as (A & B & C); [intros a b; cbn; split; discriminate|intros; reflexivity|intros; reflexivity|].
  split; auto. split; [exact B|]. intros id. unfold create_table. rewrite C. cbn. rewrite Nat.sub_0_r. auto.
Qed.
Theorem C177_fresh_pairs m a b : inverse (get (right m)) (get (left m)) -> get (right m) a = None -> get (left m) b = None ->
  inverse (get (right (add m a b))) (get (left (add m a b))) /\ get (right (add m a b)) a = Some b /\ size (add m a b) = S (size m) /\ is_empty (add m a b) = false.
Proof.
  intros H1 H2 H3. destruct (add_inverse m a b H1 H2 H3) as [A B]. split; auto. split; [unfold add; cbn; rewrite get_put, Nat.eqb_refl; auto|]. split; auto. revert B. unfold is_empty, size. destruct (left (add m a b)); cbn; [discriminate|auto].
Qed.
Example C177_table_ex : get (right (create_table [10; 30; 20])) 1 = Some 30 /\ get (left (create_table [10; 30; 20])) 20 = Some 2 /\ NoDup [10; 30; 20].
Proof. split; [reflexivity|]. split; [reflexivity|]. repeat constructor; cbn; intuition discriminate. Qed.

(** ** C178 *)
(** the documentation: a runtime error if the number of nodes does not match the file *)
Theorem C178_any_number_of_nodes_refuted : ~ (forall (m : list (list bool)) nbNode, square m -> length m <> nbNode -> construct m nbNode = Throw).
Proof. intros H. specialize (H [[true]] 5). discriminate H; [intros r [<-|[]]; reflexivity|discriminate]. Qed.
(** a matrix smaller than the model: the neighbours of its last islands are out of the matrix *)
Theorem C178_islands_out_of_the_matrix m nbNode id : m <> [] -> length m <= id < nbNode ->
  exists m', construct m nbNode = Ok m' /\ boolean_neighbors m' id = UB.
Proof. intros Hm Hid. exists m. split; [reflexivity|]. unfold boolean_neighbors. destruct m as [|r m]; [congruence|]. cbn [length seq neighbors_from]. unfold cell at 1. rewrite (proj2 (nth_error_None (r :: m) id)) by (cbn in *; lia). reflexivity. Qed.
Theorem C178_blank_first_line_refuted : boolean_topology [[Num 0%Z; Num 1%Z]; []; [Num 1%Z; Num 0%Z]] = Ok [[false; true]; [true; false]] /\ boolean_topology [[]; [Num 0%Z; Num 1%Z]; [Num 1%Z; Num 0%Z]] = Throw.
Proof. vm_compute. auto. Qed.
(** adding a known key again breaks the correspondence *)
Theorem C178_known_key_refuted : ~ (forall m a b, inverse (get (right m)) (get (left m)) -> inverse (get (right (add m a b))) (get (left (add m a b)))).
Proof.
  intros H. destruct (C177_fresh_pairs (Bimap [] []) 1 2) as [A _]; [intros a b; cbn; split; discriminate|reflexivity|reflexivity|]. specialize (H _ 1 3 A 1 2). cbn in H. assert (Some 3 = Some 2) by (apply H; reflexivity). discriminate.
Qed.
(** the shared continuator: after one call that has not reached the optimum, every later call, on any island, answers "stop" *)
Theorem C178_stops_at_the_second_call {F} (ltb : F -> F -> bool) optimum p pops : fit_continue F ltb optimum p = Ok true ->
  shared_calls F ltb optimum false (p :: pops) = Ok (true :: repeat false (length pops)).
Proof.
  intros E. cbn [shared_calls]. unfold shared_call at 1. rewrite E. cbn [rbind]. assert (K : shared_calls F ltb optimum true pops = Ok (repeat false (length pops))) by (induction pops as [|q pops IH]; cbn; [auto|rewrite IH; auto]). rewrite K. reflexivity.
Qed.
(** the documented behaviour: calls go on until some population has reached the optimum, and stop from then on *)
Theorem C178_shared_continue_refuted : ~ (forall (optimum : nat) pops l, shared_calls nat Nat.ltb optimum false pops = Ok l ->
  forall k b, nth_error l k = Some b -> (b = false <-> exists i p x, i <= k /\ nth_error pops i = Some p /\ In x p /\ optimum <= x)).
Proof.
  intros H. specialize (H 9 [[1; 2]; [3; 4]] [true; false] eq_refl 1 false eq_refl). destruct H as [H _]. destruct (H eq_refl) as (i & p & x & Hi & Hp & Hx & Ho).
  destruct i as [|[|i]]; [| |lia]; injection Hp as <-; cbn in Hx; lia.
Qed.
(** one island reaching the optimum does not stop the others *)
Theorem C178_reaching_is_not_shared {F} (ltb : F -> F -> bool) optimum p q b : fit_continue F ltb optimum p = Ok false -> fit_continue F ltb optimum q = Ok b ->
  shared_calls F ltb optimum false [p; q] = Ok [false; b].
Proof. intros E1 E2. cbn [shared_calls]. unfold shared_call at 1. rewrite E1. cbn [rbind]. unfold shared_call. rewrite E2. reflexivity. Qed.
Example C178_ex : shared_calls nat Nat.ltb 9 false [[1; 2]; [3; 4]; [5; 6]] = Ok [true; false; false] /\ shared_calls nat Nat.ltb 9 false [[1; 9]; [3; 4]; [5; 6]] = Ok [false; true; false].
Proof. vm_compute. auto. Qed.
Print Assumptions C177_accepted_files.
Print Assumptions C177_other_files_throw.
Print Assumptions C177_booleans.
Print Assumptions C177_probabilities.
Print Assumptions C177_boolean_neighbors.
Print Assumptions C177_stochastic_neighbors.
Print Assumptions C177_isolate.
Print Assumptions C177_isolated_has_no_neighbor.
Print Assumptions C177_table.
Print Assumptions C177_fresh_pairs.
Print Assumptions C178_any_number_of_nodes_refuted.
Print Assumptions C178_islands_out_of_the_matrix.
Print Assumptions C178_blank_first_line_refuted.
Print Assumptions C178_known_key_refuted.
Print Assumptions C178_stops_at_the_second_call.
Print Assumptions C178_shared_continue_refuted.
Print Assumptions C178_reaching_is_not_shared.
Print Assumptions C177_line_numbers.
