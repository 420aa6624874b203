(** Proofs about the custom topologies, the table of the islands and the shared continuator. *)
From Coq Require Import List Arith Lia Bool ZArith QArith Lqa Sorted.
From Verif Require Import Lib Outcome ReplModel ReplProofs AlgoModel CustModel CustSpec.
From Coq Require Import List.
Import ListNotations.
Close Scope Q_scope.
Open Scope nat_scope.

(** ** reading *)
Definition filled {U} (l : list U) : bool := negb (length l =? 0).
Section Read.
Variables T U : Type.
Variable conv : T -> U.
Definition rows (lines : list (list (token T))) : list (list U) := filter filled (map (fun l => map conv (read_line l)) lines).
Lemma read_lines_ok n : forall lines m, (forall r, In r (rows lines) -> length r = n) -> read_lines conv (Some n) m lines = Ok (m ++ rows lines).
Proof.
  induction lines as [|l lines IH]; intros m H; cbn [read_lines]; [cbn; rewrite app_nil_r; auto|]. unfold rows in *. cbn [map filter] in *.
  destruct (filled (map conv (read_line l))) eqn:E; unfold filled in E.
  - rewrite (H (map conv (read_line l))) by (cbn; auto). rewrite Nat.eqb_refl. cbn [negb andb]. rewrite <- (H (map conv (read_line l))) at 1 by (cbn; auto). apply negb_true_iff in E. rewrite (H (map conv (read_line l))) in E by (cbn; auto). 
    rewrite (H (map conv (read_line l))) by (cbn; auto). rewrite E. rewrite IH by (intros r Hr; apply H; cbn; auto). rewrite <- app_assoc. reflexivity.
  - apply negb_false_iff in E. rewrite E. cbn [negb]. rewrite andb_false_r. apply IH. auto.
Qed.
Lemma read_lines_inv n : forall lines m m', read_lines conv (Some n) m lines = Ok m' -> m' = m ++ rows lines /\ forall r, In r (rows lines) -> length r = n.
Proof.
  induction lines as [|l lines IH]; intros m m' H; cbn [read_lines] in H; [injection H as <-; cbn; rewrite app_nil_r; split; auto; intros r []|]. unfold rows in *. cbn [map filter].
  set (v := map conv (read_line l)) in *. unfold filled. destruct (length v =? 0) eqn:E; cbn [negb] in *.
  - rewrite andb_false_r in H. apply IH in H. auto.
  - rewrite andb_true_r in H. destruct (length v =? n) eqn:En; cbn [negb] in H; [|discriminate]. apply IH in H as [-> H]. rewrite <- app_assoc. split; auto. intros r [<-|Hr]; [apply Nat.eqb_eq; auto|auto].
Qed.
Lemma read_lines_throw size : forall lines m, (exists m', read_lines conv size m lines = Ok m') \/ read_lines conv size m lines = Throw.
Proof.
  intros lines. revert size. induction lines as [|l lines IH]; intros size m; cbn [read_lines]; [left; eauto|]. match goal with |- context[if ?b then Throw else _] => destruct b end; auto.
Qed.
(** a file is accepted exactly when its lines with numbers make a square matrix and the first line is one of them *)
Lemma read_matrix_ok lines m : read_matrix conv lines = Ok m <-> m = rows lines /\ square m /\ (m = [] \/ exists l r, lines = l :: r /\ read_line l <> []).
Proof.
  unfold read_matrix. assert (Sq : forall m : list (list U), forallb (fun v => length v =? length m) m = true <-> square m).
  { intros q. rewrite forallb_forall. unfold square. split; intros H r Hr; [apply Nat.eqb_eq|apply Nat.eqb_eq]; auto. }
  destruct lines as [|l lines]; cbn [read_lines].
  - cbn. split; [intros H; injection H as <-; split; auto; split; auto; intros r []|intros (-> & _); auto].
  - set (v := map conv (read_line l)). rewrite Nat.eqb_refl. cbn [negb andb]. assert (Ev : read_line l = [] <-> length v = 0) by (unfold v; rewrite map_length; destruct (read_line l); cbn; split; try discriminate; auto).
    unfold rows. cbn [map filter]. fold v. unfold filled at 1. destruct (Nat.eqb_spec (length v) 0) as [E|E]; cbn [negb].
    + split.
      * intros H. apply rbind_ok in H as (m' & E' & H). rewrite E in E'. apply read_lines_inv in E' as [-> Hn]. cbn [app] in H.
        assert (rows lines = []) as R. { destruct (rows lines) as [|r rs] eqn:Er; auto. specialize (Hn r (or_introl eq_refl)). assert (In r (rows lines)) as Hr by (rewrite Er; cbn; auto). unfold rows in Hr. apply filter_In in Hr as [_ Hr]. unfold filled in Hr. rewrite Hn in Hr. discriminate. }
        fold (rows lines). rewrite R in *. cbn in H. injection H as <-. split; [reflexivity|]. split; [intros r []|auto].
      * intros (-> & Hs & [Hm|(l' & r' & El & Hl)]); [|injection El as <- <-; apply Ev in E; congruence]. fold (rows lines) in *. rewrite E. rewrite read_lines_ok by (rewrite Hm; intros r []). cbn [app rbind]. rewrite Hm. reflexivity.
    + split.
      * intros H. apply rbind_ok in H as (m' & E' & H). apply read_lines_inv in E' as [-> Hn]. fold (rows lines). destruct (forallb _ _) eqn:F in H; [|discriminate]. injection H as <-. split; auto. split; [apply Sq; exact F|]. right. exists l, lines. split; auto. rewrite Ev. auto.
      * intros (-> & Hs & _). fold (rows lines) in *. rewrite read_lines_ok. 2:{ intros r Hr. rewrite (Hs r), (Hs v); cbn; auto. } cbn [rbind]. change (([] ++ [v]) ++ rows lines) with (v :: rows lines). rewrite (proj2 (Sq _) Hs). reflexivity.
Qed.
Lemma read_matrix_throw lines : (exists m, read_matrix conv lines = Ok m) \/ read_matrix conv lines = Throw.
Proof. unfold read_matrix. destruct (read_lines_throw None lines []) as [[m ->]|E]; [cbn [rbind]|rewrite E; auto]. destruct (forallb _ m); eauto. Qed.
End Read.
Lemma clip_range x : (0 <= clip x <= 1)%Q /\ ((0 <= x <= 1)%Q -> clip x = x).
Proof.
  unfold clip. destruct (qlt x 0) eqn:E1; [apply qlt_lt in E1|apply qlt_ge in E1]; [split; [lra|intros; lra]|]. destruct (qlt 1 x) eqn:E2; [apply qlt_lt in E2|apply qlt_ge in E2]; split; try lra; auto.
Qed.

(** ** neighbours *)
Lemma cell_ok {U} (m : list (list U)) i j x : cell m i j = Ok x <-> entry_is m i j x.
Proof.
  unfold cell, entry_is. split.
  - intros H. apply rbind_ok in H as (r & E & H). apply of_opt_ok in E. apply of_opt_ok in H. eauto.
  - intros (r & -> & E). cbn. rewrite E. reflexivity.
Qed.
Lemma square_entry {U} (m : list (list U)) i j : square m -> i < length m -> j < length m -> exists x, entry_is m i j x.
Proof. intros Sq Hi Hj. destruct (nth_error_in_some m i) as [r Hr]; auto. destruct (nth_error_in_some r j) as [x Hx]; [rewrite (Sq r); auto; eapply nth_error_In; eauto|]. exists x, r. auto. Qed.
Lemma entry_fun {U} (m : list (list U)) i j x y : entry_is m i j x -> entry_is m i j y -> x = y.
Proof. intros (r & E & H) (r' & E' & H'). congruence. Qed.
Lemma neighbors_from_ok m id : square m -> id < length m -> forall len s, s + len <= length m -> exists l, neighbors_from m id (seq s len) = Ok l /\ StronglySorted lt l /\ (forall j, In j l <-> s <= j < s + len /\ entry_is m id j true).
Proof.
  intros Sq Hid. induction len as [|len IH]; intros s Hs; cbn [seq neighbors_from]; [exists []; split; [reflexivity|]; split; [apply SSorted_nil|]; intros j; split; [intros []|intros [? _]; lia]|].
  destruct (square_entry m id s Sq Hid ltac:(lia)) as (b & Hb). rewrite (proj2 (cell_ok m id s b) Hb). cbn [rbind]. destruct (IH (S s)) as (l & E & So & Hl); [lia|]. rewrite E. cbn [rbind]. eexists. split; [reflexivity|]. destruct b.
  - split; [constructor; auto; apply Forall_forall; intros j Hj; apply Hl in Hj; lia|]. intros j. cbn. rewrite Hl. split.
    + intros [<-|[H1 H2]]; [split; auto; lia|split; auto; lia].
    + intros [H1 H2]. destruct (Nat.eq_dec s j); [auto|]. right. split; auto. lia.
  - split; auto. intros j. rewrite Hl. split; intros [H1 H2]; (split; [lia|auto]) || idtac. split; auto. destruct (Nat.eq_dec s j) as [->|]; [|lia]. pose proof (entry_fun _ _ _ _ _ Hb H2). discriminate.
Qed.
Lemma drawn_from_ok m id : square m -> id < length m -> forall len s us, s + len <= length m -> len <= length us -> exists l, drawn_from m id (seq s len) us = Ok l /\ StronglySorted lt l /\
  (forall j, In j l <-> s <= j < s + len /\ exists p u, entry_is m id j p /\ nth_error us (j - s) = Some u /\ (u < p)%Q).
Proof.
  intros Sq Hid. induction len as [|len IH]; intros s us Hs Hu; cbn [seq drawn_from]; [exists []; split; [reflexivity|]; split; [apply SSorted_nil|]; intros j; split; [intros []|intros [? _]; lia]|].
  destruct (square_entry m id s Sq Hid ltac:(lia)) as (p & Hp). rewrite (proj2 (cell_ok m id s p) Hp). cbn [rbind]. destruct us as [|u us]; [cbn in Hu; lia|]. destruct (IH (S s) us) as (l & E & So & Hl); [lia|cbn in Hu; lia|]. rewrite E. cbn [rbind].
  assert (Sh : forall j, S s <= j -> nth_error (u :: us) (j - s) = nth_error us (j - S s)) by (intros j Hj; replace (j - s) with (S (j - S s)) by lia; reflexivity).
  eexists. split; [reflexivity|]. destruct (qlt u p) eqn:Q1; [apply qlt_lt in Q1|apply qlt_ge in Q1].
  - split; [constructor; auto; apply Forall_forall; intros j Hj; apply Hl in Hj; lia|]. intros j. cbn [In]. rewrite Hl. split.
    + intros [<-|(H1 & p' & u' & H2 & H3 & H4)]; [split; [lia|]; exists p, u; rewrite Nat.sub_diag; auto|split; [lia|]; exists p', u'; rewrite Sh by lia; auto].
    + intros (H1 & p' & u' & H2 & H3 & H4). destruct (Nat.eq_dec s j); [auto|]. right. split; [lia|]. exists p', u'. rewrite Sh in H3 by lia. auto.
  - split; auto. intros j. rewrite Hl. split.
    + intros (H1 & p' & u' & H2 & H3 & H4). split; [lia|]. exists p', u'. rewrite Sh by lia. auto.
    + intros (H1 & p' & u' & H2 & H3 & H4). destruct (Nat.eq_dec s j) as [->|].
      * rewrite Nat.sub_diag in H3. injection H3 as <-. rewrite (entry_fun _ _ _ _ _ H2 Hp) in H4. lra.
      * split; [lia|]. exists p', u'. rewrite Sh in H3 by lia. auto.
Qed.

(** ** isolating *)
Definition ent {U} (m : list (list U)) (i j : nat) : option U := match nth_error m i with Some r => nth_error r j | None => None end.
Lemma ent_entry {U} (m : list (list U)) i j x : ent m i j = Some x <-> entry_is m i j x.
Proof. unfold ent, entry_is. destruct (nth_error m i) as [r|]; split; [intros H; exists r; auto|intros (r' & E & H); congruence|discriminate|intros (r' & E & _); discriminate]. Qed.
Lemma clear_ok {U} (zero : U) m i j : square m -> i < length m -> j < length m -> exists m', clear zero m i j = Ok m' /\ square m' /\ length m' = length m /\
  forall i' j', ent m' i' j' = if (i' =? i) && (j' =? j) then Some zero else ent m i' j'.
Proof.
  intros Sq Hi Hj. unfold clear. destruct (nth_error_in_some m i) as [r Hr]; auto. rewrite Hr. cbn [of_opt rbind]. assert (Lr : length r = length m) by (apply Sq; eapply nth_error_In; eauto).
  rewrite (upd_set r j zero) by lia. cbn [of_opt rbind]. rewrite (upd_set m i _) by auto. cbn [of_opt]. eexists. split; [reflexivity|]. split; [|split; [apply set_length|]].
  - intros r' Hr'. rewrite set_length. apply In_nth_error in Hr' as [k Hk]. destruct (Nat.eq_dec k i) as [->|N].
    + rewrite nth_error_set_eq in Hk by auto. injection Hk as <-. rewrite set_length. auto.
    + rewrite nth_error_set_neq in Hk by auto. apply Sq. eapply nth_error_In; eauto.
  - intros i' j'. unfold ent. destruct (Nat.eqb_spec i' i) as [->|N]; cbn [andb].
    + rewrite nth_error_set_eq by auto. destruct (Nat.eqb_spec j' j) as [->|N']; [apply nth_error_set_eq; lia|]. rewrite nth_error_set_neq by auto. rewrite Hr. auto.
    + rewrite nth_error_set_neq by auto. auto.
Qed.
Lemma isolate_from_ok {U} (zero : U) id : forall is m, square m -> id < length m -> (forall i, In i is -> i < length m) -> exists m', isolate_from zero m id is = Ok m' /\ square m' /\ length m' = length m /\
  forall i j, ent m' i j = if ((i =? id) && existsb (Nat.eqb j) is) || ((j =? id) && existsb (Nat.eqb i) is) then Some zero else ent m i j.
Proof.
  induction is as [|k is IH]; intros m Sq Hid H; cbn [isolate_from]; [exists m; repeat split; auto; intros i j; cbn; rewrite !andb_false_r; auto|].
  destruct (clear_ok zero m id k Sq Hid) as (m1 & E1 & S1 & L1 & H1); [apply H; cbn; auto|]. rewrite E1. cbn [rbind].
  destruct (clear_ok zero m1 k id S1) as (m2 & E2 & S2 & L2 & H2); [rewrite L1; apply H; cbn; auto|lia|]. rewrite E2. cbn [rbind].
  destruct (IH m2 S2) as (m' & E & S' & L' & H'); [lia|intros i Hi; rewrite L2, L1; apply H; cbn; auto|]. exists m'. split; auto. split; auto. split; [lia|].
  intros i j. rewrite H', H2, H1. cbn [existsb]. destruct (Nat.eqb_spec i id), (Nat.eqb_spec j id), (Nat.eqb_spec i k), (Nat.eqb_spec j k); cbn [andb orb]; subst; try congruence;
    repeat match goal with |- context[existsb ?f ?l] => destruct (existsb f l) end; cbn [andb orb]; try reflexivity; try congruence.
Qed.
Lemma isolate_ok {U} (zero : U) m id : square m -> id < length m -> exists m', isolate zero m id = Ok m' /\ square m' /\ length m' = length m /\
  forall i j x, entry_is m' i j x <-> i < length m /\ j < length m /\ (((i = id \/ j = id) /\ x = zero) \/ (i <> id /\ j <> id /\ entry_is m i j x)).
Proof.
  intros Sq Hid. destruct (isolate_from_ok zero id (seq 0 (length m)) m Sq Hid) as (m' & E & S' & L' & H); [intros i Hi; apply in_seq in Hi; lia|]. exists m'. split; auto. split; auto. split; auto.
  assert (Ex : forall i, existsb (Nat.eqb i) (seq 0 (length m)) = (i <? length m)).
  { intros i. apply eq_true_iff_eq. rewrite existsb_exists, Nat.ltb_lt. split; [intros (z & Hz & Ez); apply Nat.eqb_eq in Ez; apply in_seq in Hz; lia|intros Hi; exists i; split; [apply in_seq; lia|apply Nat.eqb_refl]]. }
  assert (In' : forall i j x, entry_is m i j x -> i < length m /\ j < length m).
  { intros i j x (r & Hr & Hx). split; [eapply nth_error_lt; eauto|]. rewrite <- (Sq r) by (eapply nth_error_In; eauto). eapply nth_error_lt; eauto. }
  intros i j x. rewrite <- ent_entry, H, !Ex. destruct (Nat.eqb_spec i id) as [->|Ni], (Nat.eqb_spec j id) as [->|Nj]; cbn [andb orb].
  - rewrite (proj2 (Nat.ltb_lt _ _) Hid). cbn. split; [intros K; injection K as <-; split; [auto|split; auto]|intros (_ & _ & [[_ ->]|(? & _)]); [auto|congruence]].
  - rewrite orb_false_r. destruct (Nat.ltb_spec j (length m)).
    + split; [intros K; injection K as <-; split; [auto|split; auto]|intros (_ & _ & [[_ ->]|(? & _)]); [auto|congruence]].
    + rewrite ent_entry. split; [intros K; apply In' in K; lia|lia].
  - destruct (Nat.ltb_spec i (length m)).
    + split; [intros K; injection K as <-; split; [auto|split; auto]|intros (_ & _ & [[_ ->]|(_ & ? & _)]); [auto|congruence]].
    + rewrite ent_entry. split; [intros K; apply In' in K; lia|lia].
  - rewrite ent_entry. split; [intros K; destruct (In' _ _ _ K); split; [auto|split; [auto|right; auto]]|intros (_ & _ & [[[?|?] _]|(_ & _ & K)]); auto; congruence].
Qed.

(** ** the bidirectional map *)
Lemma get_put {V} (m : list (nat * V)) k v k' : get (put m k v) k' = if k' =? k then Some v else get m k'.
Proof.
  induction m as [|[a b] m IH]; cbn; [destruct (k' =? k); auto|]. destruct (Nat.eqb_spec k a) as [->|N]; cbn; [destruct (k' =? a); auto|]. destruct (Nat.eqb_spec k' a) as [->|]; auto. destruct (Nat.eqb_spec a k); auto. congruence.
Qed.
Lemma put_length {V} (m : list (nat * V)) k v : length (put m k v) = match get m k with Some _ => length m | None => S (length m) end.
Proof. induction m as [|[a b] m IH]; cbn; auto. destruct (k =? a); cbn; auto. rewrite IH. destruct (get m k); auto. Qed.
Lemma add_inverse m a b : inverse (get (right m)) (get (left m)) -> get (right m) a = None -> get (left m) b = None ->
  inverse (get (right (add m a b))) (get (left (add m a b))) /\ size (add m a b) = S (size m).
Proof.
  intros Hi Ha Hb. split; [|unfold size, add; cbn; rewrite put_length, Hb; auto]. intros x y. unfold add. cbn. rewrite !get_put. destruct (Nat.eqb_spec x a) as [->|Nx], (Nat.eqb_spec y b) as [->|Ny].
  - split; auto.
  - split; [congruence|]. intros H. apply Hi in H. congruence.
  - split; [|congruence]. intros H. apply Hi in H. congruence.
  - apply Hi.
Qed.
Lemma create_from_ok : forall islands m id, NoDup islands -> inverse (get (right m)) (get (left m)) -> (forall k, id <= k -> get (right m) k = None) -> (forall i, In i islands -> get (left m) i = None) ->
  inverse (get (right (create_from m id islands))) (get (left (create_from m id islands))) /\ size (create_from m id islands) = size m + length islands /\
  (forall k, get (right (create_from m id islands)) k = if k <? id then get (right m) k else nth_error islands (k - id)).
Proof.
  induction islands as [|i islands IH]; intros m id N Hi Hr Hl; cbn [create_from].
  - split; auto. split; [cbn; lia|]. intros k. destruct (Nat.ltb_spec k id); auto. rewrite Hr by auto. destruct (k - id); auto.
  - inversion N as [|? ? Nin N']; subst. destruct (add_inverse m id i Hi (Hr id (le_n _)) (Hl i (or_introl eq_refl))) as [H1 H2].
    destruct (IH (add m id i) (S id) N' H1) as (A & B & C).
    + intros k Hk. unfold add. cbn. rewrite get_put. destruct (Nat.eqb_spec k id); [lia|]. apply Hr. lia.
    + intros j Hj. unfold add. cbn. rewrite get_put. destruct (Nat.eqb_spec j i) as [->|]; [contradiction|]. apply Hl. cbn; auto.
    + split; auto. split; [rewrite B, H2; cbn; lia|]. intros k. rewrite C. unfold add. cbn [right]. rewrite get_put. destruct (Nat.ltb_spec k (S id)), (Nat.ltb_spec k id), (Nat.eqb_spec k id); try lia; auto.
      * subst. rewrite Nat.sub_diag. auto.
      * replace (k - id) with (S (k - S id)) by lia. auto.
Qed.
