(** Proofs about the SPEA2 archive: the matrix, the replacements and the offers. *)
From Coq Require Import Bool QArith Arith Lia Lqa Permutation Sorted.
From Verif Require Import Lib Outcome OrderSpec OrderLemmas BoundsModel BoundsProofs EvalModel EvalProofs DivProofs DivNear SpeaModel SpeaSpec SpeaProofs.
From Coq Require Import List.
Import ListNotations.
Close Scope Q_scope.
Open Scope nat_scope.

(** ** the matrix *)
Section Matrix.
Variable G : Type.
Variable dist : G -> G -> Q.
Variable all : list G.
Notation n := (length all).
Notation dd := (DivNear.dd G dist all).
Definition rows_at (k l : nat) : list (list (nat * Q)) :=
  map (fun r => map (fun o => (o, dd r o)) (filter (done k l r) (seq 0 n))) (seq 0 n).
Ltac bools := repeat match goal with |- context [?a =? ?b] => destruct (Nat.eqb_spec a b) | |- context [?a <? ?b] => destruct (Nat.ltb_spec a b) end; cbn; try reflexivity; try lia.
Lemma push_ok f k x : k < n -> push (map f (seq 0 n)) k x = Ok (set (map f (seq 0 n)) k (f k ++ [x])).
Proof. intros Hk. unfold push. rewrite nth_error_map', nth_error_seq' by auto. cbn. rewrite upd_set by (rewrite map_length, seq_length; auto). auto. Qed.
Variable el : nat -> res G.
Hypothesis el_ok : forall k x, nth_error all k = Some x -> el k = Ok x.
Lemma inner_rows k : k < n -> forall c l, k < l -> l + c = n ->
  for_in (seq l c) (fun l rows => let! x := el k in let! y := el l in let! rows := push rows k (l, dist x y) in push rows l (k, dist x y)) (rows_at k l) = Ok (rows_at k n).
Proof.
  intros Hk. induction c as [|c IH]; intros l Hl Hc; cbn [seq for_in]; [replace l with n by lia; auto|].
  match goal with |- context [for_in (seq (S l) c) ?b] => set (body := b) in * end.
  destruct (nth_error all k) as [x|] eqn:Ex; [|apply nth_error_None in Ex; lia]. destruct (nth_error all l) as [y|] eqn:Ey; [|apply nth_error_None in Ey; lia].
  rewrite (el_ok _ _ Ex), (el_ok _ _ Ey). cbn [rbind].
  unfold rows_at at 1. rewrite push_ok by auto. cbn [rbind].
  assert (D1 : dd k l = dist x y) by (unfold DivNear.dd; rewrite Nat.min_l, Nat.max_r by lia; rewrite Ex, Ey; auto). assert (D2 : dd l k = dist x y) by (unfold DivNear.dd; rewrite Nat.min_r, Nat.max_l by lia; rewrite Ex, Ey; auto).
  assert (F1 : filter (done k (S l) k) (seq 0 n) = filter (done k l k) (seq 0 n) ++ [l]).
  { apply filter_snoc; try lia; [intros o Ho Hne|..|intros o Ho]; unfold done; bools. }
  assert (F2 : filter (done k (S l) l) (seq 0 n) = filter (done k l l) (seq 0 n) ++ [k]).
  { apply filter_snoc; try lia; [intros o Ho Hne|..|intros o Ho]; unfold done; bools. }
  assert (F3 : forall r, r <> k -> r <> l -> filter (done k (S l) r) (seq 0 n) = filter (done k l r) (seq 0 n)).
  { intros r R1 R2. apply filter_ext_in. intros o Ho. apply in_seq in Ho. unfold done; bools. }
  rewrite (map_seq_set _ (fun r => if r =? k then map (fun o => (o, dd k o)) (filter (done k l k) (seq 0 n)) ++ [(l, dist x y)] else map (fun o => (o, dd r o)) (filter (done k l r) (seq 0 n))) n k); [|lia|rewrite Nat.eqb_refl; auto|intros r _ Hr; destruct (Nat.eqb_spec r k); [congruence|auto]].
  rewrite push_ok by lia. cbn [rbind]. destruct (Nat.eqb_spec l k) as [|_]; [lia|].
  rewrite (map_seq_set _ (fun r => map (fun o => (o, dd r o)) (filter (done k (S l) r) (seq 0 n))) n l); try lia.
  - fold (rows_at k (S l)). apply IH; lia.
  - rewrite F2, map_app. cbn [map]. rewrite D2. auto.
  - intros r Hr Hrl. destruct (Nat.eqb_spec r k) as [->|Hrk]; [rewrite F1, map_app; cbn [map]; rewrite D1; auto|rewrite F3; auto].
Qed.
Lemma rows_next k : k + 1 < n -> rows_at k n = rows_at (k + 1) (k + 2).
Proof.
  intros Hk. unfold rows_at. apply map_ext_in. intros r Hr. apply in_seq in Hr. f_equal. apply filter_ext_in. intros o Ho. apply in_seq in Ho. unfold done. bools.
Qed.
Lemma rows_first : rows_at 0 1 = repeat [] n.
Proof.
  unfold rows_at. rewrite (map_ext_in _ (fun _ => [])); [induction n as [|m IH]; cbn; auto; f_equal; rewrite <- seq_shift, map_map; auto|].
  intros r Hr. rewrite filter_none; auto. intros o Ho. unfold done. bools.
Qed.
Lemma rows_last : 0 < n -> rows_at (n - 1) n = map (fun r => map (fun o => (o, dd r o)) (others (seq 0 n) r)) (seq 0 n).
Proof.
  intros Hn. unfold rows_at. apply map_ext_in. intros r Hr. apply in_seq in Hr. f_equal. apply filter_ext_in. intros o Ho. apply in_seq in Ho. unfold done. bools.
Qed.
Lemma matrix_ok : for_in (seq 0 (n - 1)) (fun k rows =>
    for_in (seq (k + 1) (n - (k + 1))) (fun l rows =>
      let! x := el k in let! y := el l in let! rows := push rows k (l, dist x y) in push rows l (k, dist x y)) rows) (repeat [] n) =
  Ok (map (fun r => map (fun o => (o, dd r o)) (others (seq 0 n) r)) (seq 0 n)).
Proof.
  destruct (Nat.eq_dec n 0) as [Z|Z]; [rewrite Z; auto|]. rewrite <- rows_first.
  assert (H : forall c k, k + c = n - 1 -> for_in (seq k c) (fun k rows => for_in (seq (k + 1) (n - (k + 1))) (fun l rows => let! x := el k in let! y := el l in let! rows := push rows k (l, dist x y) in push rows l (k, dist x y)) rows) (rows_at k (k + 1)) = Ok (rows_at (n - 1) n)).
  { induction c as [|c IH]; intros k Hk; cbn [seq for_in].
    - replace k with (n - 1) by lia. replace (n - 1 + 1) with n by lia. auto.
    - rewrite inner_rows by lia. cbn [rbind]. rewrite rows_next by lia. specialize (IH (S k) ltac:(lia)). replace (k + 1) with (S k) by lia. replace (k + 2) with (S k + 1) by lia. auto. }
  rewrite <- rows_last by lia. apply (H (n - 1) 0). lia.
Qed.
End Matrix.

Section Offer.
Variable G : Type.
Variable fit : G -> Q.
Variable dv : G -> Q.
Variable comp : G -> G -> bool.
Variable dist : G -> G -> Q.
Variable sort : forall T : Type, (T -> T -> bool) -> list T -> list T.
Hypothesis sort_ok : std_sort_ok sort.
Hypothesis comp_ok : strict_weak_order comp.
Notation worth := (worth G fit dv).
Notation copies := (copies G fit dv sort).

(** ** the sorted population *)
Definition worse (a b : G) : bool := qltb (worth a) (worth b).
Lemma map_snd_combine {A} (l : list A) : forall k, map snd (combine (seq k (length l)) l) = l.
Proof. induction l as [|a l IH]; intros k; cbn; auto. f_equal. auto. Qed.
Lemma copies_sorted pop : sorted_by (fun a b => worse b a) pop (map snd (copies pop)).
Proof.
  unfold SpeaModel.copies. set (cmp := fun a b : nat * G => _).
  destruct (sort_ok _ cmp (combine (seq 0 (length pop)) pop)) as [P S].
  { destruct (qltb_swo (fun p : nat * G => worth (snd p))) as (A & B & C). split; [|split]; unfold cmp; intros.
    - apply A. - eapply B; eauto. - eapply C; eauto. }
  split.
  - eapply Permutation_trans; [|apply Permutation_map; exact P]. rewrite map_snd_combine. auto.
  - clear P. induction S as [|a l S IH F]; cbn; [constructor|]. constructor; [exact IH|]. apply Forall_map. exact F.
Qed.
Lemma copies_length pop : length (copies pop) = length pop.
Proof. destruct (copies_sorted pop) as [P _]. apply Permutation_length in P. rewrite map_length in P. auto. Qed.

(** ** the replacement of the worst members *)
Lemma removelast_snoc {A} (l : list A) x : removelast (l ++ [x]) = l.
Proof. rewrite removelast_app by discriminate. cbn. apply app_nil_r. Qed.
Lemma set_mid {A} (pre post : list A) a b : set (pre ++ a :: post) (length pre) b = pre ++ b :: post.
Proof. induction pre; cbn; f_equal; auto. Qed.
Lemma nth_mid {A} (pre post : list A) a : nth_error (pre ++ a :: post) (length pre) = Some a.
Proof. rewrite nth_error_app2, Nat.sub_diag; auto. Qed.

Lemma skipn_one {A} i : forall l : list A, skipn 1 (skipn i l) = skipn (S i) l.
Proof. induction i as [|i IH]; intros [|a l]; auto. apply IH. Qed.

Definition step_of (copy : list (nat * G)) (m : nat) (la : G) (i : nat) (dn : list G) (x : G) : Prop :=
  length dn = i /\ i <= m /\ Permutation (dn ++ [x]) (la :: firstn i (map snd copy)) /\
  (i = 0 -> x = la) /\ (forall k, i = S k -> nth_error (map snd copy) k = Some x).

Lemma firstn_snoc {A} (l : list A) i x : nth_error l i = Some x -> firstn (S i) l = firstn i l ++ [x].
Proof. revert i. induction l as [|a l IH]; intros [|i] E; cbn in *; try discriminate; [congruence|]. f_equal. auto. Qed.

Lemma replace_ok copy body la : StronglySorted (fun a b => worse a b = false) (map snd copy) ->
  forall fuel i dn x, S (length body) - i < fuel ->
  step_of copy (length body) la i dn x ->
  (forall k, k < i -> exists a p, nth_error (body ++ [la]) k = Some a /\ nth_error (map snd copy) k = Some p /\ yields G fit dv a p) ->
  exists r, replaced G fit dv (body ++ [la]) (map snd copy) r /\ r <= length copy /\
  ((replace_worst G fit dv fuel (S (length body)) copy i i (dn ++ skipn i body ++ [x]) = UB /\ r = length copy) \/
   exists mem, replace_worst G fit dv fuel (S (length body)) copy i i (dn ++ skipn i body ++ [x]) = Ok (mem, r) /\
     Permutation mem (skipn r (body ++ [la]) ++ firstn r (map snd copy))).
Proof.
  intros Srt. induction fuel as [|fuel IH]; intros i dn x L (Hd & Hi & P & X0 & XS) Y; [lia|].
  cbn [replace_worst]. replace (i <? S (length body)) with true by (symmetry; apply Nat.ltb_lt; lia).
  set (mem := dn ++ skipn i body ++ [x]).
  assert (Lm : length mem = S (length body)) by (unfold mem; rewrite !app_length, skipn_length; cbn; lia).
  assert (Pm : Permutation mem (skipn i (body ++ [la]) ++ firstn i (map snd copy))).
  { unfold mem. rewrite skipn_app. replace (i - length body) with 0 by lia. cbn [skipn].
    eapply Permutation_trans; [apply Permutation_app_swap_app|]. rewrite <- app_assoc. apply Permutation_app_head. exact P. }
  destruct (nth_error mem i) as [mi|] eqn:Em; [|apply nth_error_None in Em; lia]. cbn [of_opt rbind].
  assert (Ic : i <= length copy).
  { destruct i as [|k]; [lia|]. destruct (Y k) as (_ & p & _ & Ep & _); [lia|]. assert (k < length (map snd copy)) by (apply nth_error_Some; congruence).
    rewrite map_length in *. lia. }
  destruct (nth_error copy i) as [c|] eqn:Ec; cbn [of_opt rbind].
  2:{ apply nth_error_None in Ec. exists i. split.
      - split; [exact Y|]. right. right. split; [rewrite app_length; cbn; lia|]. intros a p _ Ep. rewrite nth_error_map' in Ep. assert (E : nth_error copy i = None) by (apply nth_error_None; lia). rewrite E in Ep. discriminate.
      - split; [lia|]. left. split; [auto|lia]. }
  assert (Lc : i < length copy) by (apply nth_error_Some; congruence).
  assert (Ep : nth_error (map snd copy) i = Some (snd c)) by (rewrite nth_error_map', Ec; auto).
  destruct (Nat.lt_ge_cases i (length body)) as [Lt|Ge].
  - (* a member of the body *)
    destruct (skipn i body) as [|b0 post] eqn:Sk; [exfalso; assert (Z : length (skipn i body) = 0) by (rewrite Sk; auto); rewrite skipn_length in Z; lia|].
    assert (Eb : nth_error body i = Some b0).
    { replace (nth_error body i) with (nth_error (skipn i body) 0) by (rewrite skipn_nth_error; f_equal; lia). rewrite Sk. auto. }
    assert (mi = b0). { unfold mem in Em. subst i. cbn [app] in Em. rewrite nth_mid in Em. congruence. } subst mi.
    destruct (qltb (sum G fit dv b0) (sum G fit dv (snd c))) eqn:Q1.
    + destruct (Qle_bool (fit b0) (-1)) eqn:Q2.
      * replace (i <? length copy) with true by (symmetry; apply Nat.ltb_lt; auto). cbn [andb].
        assert (El : nth_error mem (length mem - 1) = Some x).
        { replace mem with ((dn ++ b0 :: post) ++ [x]) by (unfold mem; rewrite <- app_assoc; auto). rewrite app_length. cbn [length]. rewrite Nat.add_sub. apply nth_mid. }
        rewrite El. cbn [of_opt rbind]. rewrite upd_set by lia. cbn [of_opt rbind].
        assert (Es : removelast (set mem i x) ++ [snd c] = (dn ++ [x]) ++ skipn (S i) body ++ [snd c]).
        { unfold mem. rewrite <- Hd at 1. cbn [app]. rewrite set_mid. replace (dn ++ x :: post ++ [x]) with ((dn ++ x :: post) ++ [x]) by (rewrite <- app_assoc; auto).
          rewrite removelast_snoc, <- !app_assoc. cbn [app]. do 2 f_equal. f_equal.
          replace post with (skipn 1 (skipn i body)) by (rewrite Sk; auto). apply skipn_one. }
        rewrite Es. apply IH.
        -- lia.
        -- split; [rewrite app_length; cbn; lia|]. split; [lia|]. split; [|split; [discriminate|intros k Hk; injection Hk as <-; auto]].
           rewrite (firstn_snoc _ _ _ Ep). rewrite app_comm_cons. apply Permutation_app_tail. exact P.
        -- intros k Hk. destruct (Nat.eq_dec k i) as [->|]; [|apply Y; lia]. exists b0, (snd c). split; [rewrite nth_error_app1 by lia; auto|]. split; [auto|].
           split; [apply qltb_lt in Q1; exact Q1|apply Qle_bool_iff in Q2; auto].
      * cbn [andb]. exists i. split; [|split; [lia|right; exists mem; split; auto]]. split; [exact Y|]. right. right. split; [rewrite app_length; cbn; lia|].
        intros a p Ea Ep'. rewrite nth_error_app1 in Ea by lia. rewrite Eb in Ea. injection Ea as <-. intros [_ Yf].
        apply Qle_bool_iff in Yf. congruence.
    + cbn [andb]. exists i. split; [|split; [lia|right; exists mem; split; auto]]. split; [exact Y|]. right. right. split; [rewrite app_length; cbn; lia|].
      intros a p Ea Ep'. rewrite nth_error_app1 in Ea by lia. rewrite Eb in Ea. injection Ea as <-. rewrite Ep in Ep'. injection Ep' as <-. intros [Yw _].
      apply qltb_ge in Q1. unfold SpeaSpec.worth in Yw. unfold sum in Q1. lra.
  - (* the last position *)
    assert (i = length body) by lia. assert (Em0 : mem = dn ++ [x]) by (unfold mem; rewrite skipn_all2 by lia; auto). clearbody mem. subst mem.
    assert (mi = x). { rewrite <- Hd in Em. rewrite nth_mid in Em. congruence. } subst mi.
    destruct i as [|k].
    + destruct body; [|discriminate]. destruct dn; [|discriminate]. cbn [app length] in *. specialize (X0 eq_refl). subst x.
      destruct (qltb (sum G fit dv la) (sum G fit dv (snd c)) && Qle_bool (fit la) (-1) && (0 <? length copy)) eqn:Q.
      * cbn. apply andb_true_iff in Q as [Q _]. apply andb_true_iff in Q as [Q1 Q2].
        exists 1. split; [|split; [lia|right]].
        -- split; [|left; cbn; lia]. intros k Hk. assert (k = 0) by lia. subst. exists la, (snd c). split; [auto|]. split; [auto|].
           split; [apply qltb_lt in Q1; exact Q1|apply Qle_bool_iff in Q2; auto].
        -- destruct fuel as [|fuel]; [lia|]. cbn. exists [snd c]. split; [auto|]. destruct copy; [discriminate|]. cbn in Ec |- *. injection Ec as <-. auto.
      * exists 0. split; [|split; [lia|right; exists [la]; split; auto]]. split; [intros; lia|]. right. right. split; [cbn; lia|]. intros a p Ea Ep'. cbn in Ea. injection Ea as <-.
        rewrite Ep in Ep'. injection Ep' as <-. intros [Yw Yf]. apply Qle_bool_iff in Yf. rewrite Yf in Q.
        replace (0 <? length copy) with true in Q by (symmetry; apply Nat.ltb_lt; auto). rewrite !andb_true_r in Q. apply qltb_ge in Q. unfold SpeaSpec.worth in Yw. unfold sum in Q. lra.
    + assert (Q1 : qltb (sum G fit dv x) (sum G fit dv (snd c)) = false).
      { exact (StronglySorted_nth _ _ k (S k) x (snd c) Srt ltac:(lia) (XS k eq_refl) Ep). }
      rewrite Q1. cbn [andb]. exists (S k). split; [|split; [lia|right; exists (dn ++ [x]); split; auto]].
      split; [exact Y|]. right. left. rewrite app_length. cbn [length]. lia.
Qed.
Lemma replace_all copy ws : StronglySorted (fun a b => worse a b = false) (map snd copy) ->
  exists r, replaced G fit dv ws (map snd copy) r /\ r <= length copy /\
  ((replace_worst G fit dv (S (length ws)) (length ws) copy 0 0 ws = UB /\ r = length copy) \/
   exists mem, replace_worst G fit dv (S (length ws)) (length ws) copy 0 0 ws = Ok (mem, r) /\
     Permutation mem (skipn r ws ++ firstn r (map snd copy))).
Proof.
  intros S. destruct (rev ws) as [|la rb] eqn:E.
  - assert (ws = []) by (rewrite <- (rev_involutive ws), E; auto). subst. exists 0. split; [split; [intros; lia|left; cbn; lia]|]. split; [lia|]. right. exists []. auto.
  - assert (Ew : ws = rev rb ++ [la]) by (rewrite <- (rev_involutive ws), E; auto). rewrite Ew. rewrite app_length. cbn [length]. rewrite Nat.add_1_r.
    destruct (replace_ok copy (rev rb) la S (Datatypes.S (Datatypes.S (length (rev rb)))) 0 [] la) as (r & R & L & H); [lia| | |].
    + split; [auto|]. split; [lia|]. split; [cbn; auto|]. split; [auto|]. discriminate.
    + intros; lia.
    + exists r. auto.
Qed.

(** ** the good individuals *)
Lemma good_run_ok (l : list (nat * G)) : good_run G fit l <= length l /\
  (forall c, In c (firstn (good_run G fit l) l) -> (-1 < fit (snd c))%Q) /\
  (forall c r, skipn (good_run G fit l) l = c :: r -> (fit (snd c) <= -1)%Q).
Proof.
  induction l as [|c l (L & F & S)]; cbn [good_run]; [split; [auto|]; split; [intros c []|discriminate]|].
  destruct (qltb (-1) (fit (snd c))) eqn:E.
  - cbn. split; [lia|]. split; [intros x [<-|J]; [apply qltb_lt; auto|auto]|auto].
  - cbn. split; [lia|]. split; [tauto|]. intros x r X. injection X as <- _. apply qltb_ge. auto.
Qed.

(** ** the lines *)
Section Lines.
Variable all : list G.
Hypothesis dist_sym : forall x y, dist x y = dist y x.
(** the distance between the elements at two positions *)
Notation dd := (DivNear.dd G dist all).
Lemma sorted_rows_ok : let rows := map (fun r => map (fun o => (o, dd r o)) (others (seq 0 (length all)) r)) (seq 0 (length all)) in
  rows_ok dd (seq 0 (length all)) (sorted_rows sort rows) /\
  StronglySorted (fun a b => cmp_rows b a = false) (sorted_rows sort rows).
Proof.
  intros rows. unfold sorted_rows. apply sort_rows; auto. assert (Lr : length rows = length all) by (unfold rows; rewrite map_length, seq_length; auto). rewrite Lr. split.
  - rewrite map_map. cbn [snd]. change (fun x : nat * list (nat * Q) => fst x) with (@fst nat (list (nat * Q))).
    assert (E : forall (a : list nat) (b : list (list (nat * Q))), length a = length b -> map fst (combine a b) = a).
    { induction a as [|x a IH]; intros [|y b] L; cbn in *; try discriminate; auto. f_equal. auto. }
    rewrite E; [auto|]. rewrite seq_length. auto.
  - apply Forall_forall. intros r J. apply in_map_iff in J as ([k l] & <- & J). cbn [fst snd].
    assert (E : l = map (fun o => (o, dd k o)) (others (seq 0 (length all)) k)).
    { unfold rows in J. clear Lr rows. revert J. generalize (seq 0 (length all)) at 1 3. induction l0 as [|x l0 IH]; cbn; [tauto|].
      intros [J|J]; [injection J as <- <-; auto|auto]. }
    set (cmp := fun a b : nat * Q => qltb (snd a) (snd b)). destruct (sort_ok _ cmp l (qltb_swo snd)) as [P Srt]. split; cbn [fst snd].
    + eapply Permutation_trans; [apply Permutation_sym, Permutation_map; exact P|]. rewrite E, map_map. cbn [fst]. rewrite map_id. auto.
    + clear P. induction Srt as [|a s Hs IH Hf]; cbn; [constructor|]. constructor; auto. apply Forall_map. eapply Forall_impl; [|exact Hf].
      intros b Hb. cbv beta in Hb. apply qltb_ge in Hb. auto.
    + intros x Jx. apply (Permutation_in _ (Permutation_sym P)) in Jx. rewrite E in Jx. apply in_map_iff in Jx as (o & <- & _). auto.
Qed.
End Lines.

(** ** the exchange *)
Lemma kept_ok borne (rows : list row) : length rows = borne ->
  kept borne rows = Ok (filter (fun t => borne <=? t) (map snd rows)).
Proof.
  intros L. unfold kept.
  destruct (for_in_seq (fun k acc => acc = filter (fun t => borne <=? t) (map snd (firstn k rows)))
    (fun k acc => let! r := of_opt (nth_error rows k) in Ok (if borne <=? snd r then acc ++ [snd r] else acc)) borne 0 []) as (m & E & H); [auto| |].
  - intros k m Hk ->. destruct (nth_error rows k) as [r|] eqn:Er; [|apply nth_error_None in Er; lia]. cbn [of_opt rbind]. eexists. split; [reflexivity|].
    rewrite (firstn_snoc _ _ _ Er), map_app, filter_app. cbn [map filter]. destruct (borne <=? snd r); auto. rewrite app_nil_r. auto.
  - rewrite E. f_equal. rewrite H. cbn [Nat.add]. rewrite firstn_all2 by lia. auto.
Qed.
Fixpoint sets (mem : list G) (ps : list (nat * G)) : list G :=
  match ps with [] => mem | (u, g) :: r => sets (set mem u g) r end.
Lemma sets_length ps : forall mem, length (sets mem ps) = length mem.
Proof. induction ps as [|[u g] ps IH]; intros mem; cbn; auto. rewrite IH, set_length. auto. Qed.
Lemma sets_other ps : forall mem i, ~ In i (map fst ps) -> nth_error (sets mem ps) i = nth_error mem i.
Proof.
  induction ps as [|[u g] ps IH]; intros mem i N; cbn in *; auto. rewrite IH by tauto. apply nth_error_set_neq. intros ->. tauto.
Qed.
Lemma sets_at ps : forall mem u g, NoDup (map fst ps) -> In (u, g) ps -> u < length mem -> nth_error (sets mem ps) u = Some g.
Proof.
  induction ps as [|[v h] ps IH]; intros mem u g N J L; [destruct J|]. cbn in N |- *. inversion N; subst. destruct J as [J|J].
  - injection J as -> ->. rewrite sets_other by auto. apply nth_error_set_eq. auto.
  - apply IH; auto. rewrite set_length. auto.
Qed.
Lemma sets_snoc ps : forall mem u g, sets mem (ps ++ [(u, g)]) = set (sets mem ps) u g.
Proof. induction ps as [|[v h] ps IH]; intros mem u g; cbn; auto. Qed.
Lemma exchange_ok borne inf copy ks nk mem vals : length mem = borne -> length ks = length nk -> (forall u, In u nk -> u < borne) ->
  length vals = length ks -> (forall k t, nth_error ks k = Some t -> exists c, nth_error copy (t - borne + inf) = Some c /\ nth_error vals k = Some (snd c)) ->
  exchange G borne inf copy ks nk mem = Ok (sets mem (combine nk vals)).
Proof.
  intros Lm Lk Hn Lv Hv. unfold exchange.
  match goal with |- for_in _ ?b _ = _ => set (body := b) end.
  destruct (for_in_seq (fun k m => m = sets mem (firstn k (combine nk vals))) body (length ks) 0 mem) as (m & E & H); [auto| |].
  - intros k m Hk ->. unfold body. destruct (nth_error ks k) as [t|] eqn:Et; [|apply nth_error_None in Et; lia]. cbn [of_opt rbind].
    destruct (Hv k t Et) as (c & Ec & Ev). rewrite Ec. cbn [of_opt rbind].
    destruct (nth_error nk k) as [u|] eqn:Eu; [|apply nth_error_None in Eu; lia]. cbn [of_opt rbind].
    set (m := sets mem (firstn k (combine nk vals))).
    assert (Lq : length m = borne) by (unfold m; rewrite sets_length; auto).
    assert (El : nth_error (m ++ [snd c]) (length (m ++ [snd c]) - 1) = Some (snd c)).
    { rewrite app_length. cbn [length]. rewrite Nat.add_sub. apply nth_mid. }
    rewrite El. cbn [of_opt rbind]. assert (Hu : u < borne) by (apply Hn; eapply nth_error_In; eauto).
    rewrite upd_set by (rewrite app_length; cbn; lia). cbn [of_opt rbind]. eexists. split; [reflexivity|].
    assert (Es : set (m ++ [snd c]) u (snd c) = set m u (snd c) ++ [snd c]).
    { revert Hu. rewrite <- Lq. clearbody m. clear. revert u. induction m as [|a m IH]; intros [|u] L; cbn in *; try lia; auto. f_equal. apply IH. lia. }
    rewrite Es, removelast_snoc. assert (Ecb : nth_error (combine nk vals) k = Some (u, snd c)).
    { revert Eu Ev. clear. revert k vals. induction nk as [|a nk IH]; intros [|k] [|v vals] Eu Ev; cbn in *; try discriminate; [congruence|auto]. }
    rewrite (firstn_snoc _ _ _ Ecb), sets_snoc. auto.
  - rewrite E. f_equal. rewrite H. rewrite firstn_all2; auto. rewrite combine_length. lia.
Qed.
Lemma sets_perm nk vals rest mem : NoDup nk -> length nk = length vals -> Permutation (seq 0 (length mem)) (nk ++ rest) ->
  Permutation (map Some (sets mem (combine nk vals))) (map Some vals ++ map (nth_error mem) rest).
Proof.
  intros N L P.
  assert (Fc : map fst (combine nk vals) = nk) by (clear -L; revert vals L; induction nk; intros [|v vals] L; cbn in *; try discriminate; auto; f_equal; auto).
  set (new := sets mem (combine nk vals)).
  assert (Ln : length new = length mem) by apply sets_length.
  assert (E : map Some new = map (nth_error new) (seq 0 (length mem))).
  { rewrite <- Ln. apply nth_error_ext. intros i. rewrite !nth_error_map'. destruct (Nat.lt_ge_cases i (length new)) as [H|H].
    - rewrite nth_error_seq' by auto. cbn. destruct (nth_error new i) eqn:X; auto. apply nth_error_None in X. lia.
    - replace (nth_error new i) with (@None G) by (symmetry; apply nth_error_None; auto).
      replace (nth_error (seq 0 (length new)) i) with (@None nat); auto. symmetry. apply nth_error_None. rewrite seq_length. auto. }
  rewrite E. eapply Permutation_trans; [apply Permutation_map; exact P|]. rewrite map_app.
  assert (Nd : NoDup (nk ++ rest)) by (eapply Permutation_NoDup; [exact P|apply seq_NoDup]).
  assert (Lt : forall i, In i (nk ++ rest) -> i < length mem) by (intros i J; apply (Permutation_in _ (Permutation_sym P)), in_seq in J; lia).
  replace (map (nth_error new) nk) with (map Some vals).
  - apply Permutation_app_head. rewrite (map_ext_in (nth_error new) (nth_error mem)); auto.
    intros i J. apply sets_other. rewrite Fc. intros K. clear -Nd J K. induction nk as [|a nk IH]; [destruct K|]. cbn in Nd. inversion Nd; subst.
    destruct K as [->|K]; [apply H1, in_or_app; auto|auto].
  - apply nth_error_ext. intros k. rewrite !nth_error_map'. destruct (nth_error nk k) as [u|] eqn:Eu.
    + destruct (nth_error vals k) as [v|] eqn:Ev; [|apply nth_error_None in Ev; assert (k < length nk) by (apply nth_error_Some; congruence); lia].
      cbn. f_equal. symmetry. apply sets_at; [rewrite Fc; auto| |apply Lt, in_or_app; left; eapply nth_error_In; eauto].
      clear -Eu Ev. revert k vals Eu Ev. induction nk as [|a nk IH]; intros [|k] [|w vals] Eu Ev; cbn in *; try discriminate; [left; congruence|right; eauto].
    + apply nth_error_None in Eu. replace (nth_error vals k) with (@None G) by (symmetry; apply nth_error_None; lia). auto.
Qed.
End Offer.
