(** The dominance-based local searches end (C112). *)
From Coq Require Import List Bool QArith Arith Lia Lqa Permutation.
From Verif Require Import Lib Outcome NeighModel NeighProofs ParetoModel ParetoSpec ParetoProofs ArchModel ArchSpec ArchProofs ArchReal DmlsSpec DmlsModel DmlsProofs.
Import ListNotations.
Close Scope Q_scope.
Open Scope nat_scope.

Section Kept.
Variable A : Type.
Variable obj : A -> list Q.
Variable dirs : list bool.
Notation P := (fun a => length (obj a) = length dirs).
Notation chain := (antichain (fun a b => dominates dirs (obj b) (obj a)) (fun a b => equal_vectors (obj a) (obj b))).
Notation update_pop := (update_pop A (list Q) obj (pareto 0 dirs) (same_vector 0) false).
(** without replacement, what leaves the archive is dominated *)
Lemma archive_kept init offered l b : Forall P (init ++ offered) -> chain init -> update_pop init offered false = Ok (l, b) ->
  forall x, In x init -> In x l \/ exists m, In m l /\ dominates dirs (obj m) (obj x).
Proof.
  intros F Hc E.
  destruct (update_pop_inv A (list Q) obj (pareto 0 dirs) (same_vector 0) false (fun seen l => Forall P seen -> (chain l /\ (forall m, In m l -> In m seen) /\ forall x, In x init -> In x l \/ exists m, In m l /\ dominates dirs (obj m) (obj x)))) with (pop := offered) (seen := init) (l := init) (acc := false) as (l' & b' & E' & H).
  - intros seen l0 x l1 b1 H Eu Fs. apply Forall_app in Fs as (Fs & Fx). inversion Fx as [|? ? Px _]; subst. destruct (H Fs) as (Hc0 & Hin & Hk). clear H. rewrite Forall_forall in Fs.
    assert (Fl : Forall P (l0 ++ [x])) by (apply Forall_forall; intros y Hy; apply in_app_or in Hy as [Hy|[<-|[]]]; auto).
    destruct (archive_step A obj dirs false l0 [x] Fl Hc0) as (l2 & b2 & E2 & Hin2 & Hc2 & Hcov). cbn [ArchModel.update_pop] in E2. rewrite Eu in E2. cbn [rbind] in E2. assert (l2 = l1) as -> by congruence.
    rewrite Forall_forall in Fl. split; auto. split; [intros m Hm; specialize (Hin2 m Hm); apply in_app_or in Hin2 as [Hm'|Hm']; apply in_or_app; auto|].
    assert (Go : forall y m, In m (l0 ++ [x]) -> P y -> dominates dirs (obj m) (obj y) -> exists m', In m' l1 /\ dominates dirs (obj m') (obj y)).
    { intros y m Hm Py Hd. destruct (Hcov m Hm) as (m' & Hm' & Hl). exists m'. split; auto. apply (lt_le dirs _ (obj m)); auto. }
    intros y Hy. assert (Py : P y). { destruct (Hk y Hy) as [Hy'|_]; auto. apply Forall_app in F as (Fi & _). rewrite Forall_forall in Fi. auto. }
    destruct (Hk y Hy) as [Hy0|(m & Hm & Hd)]; [|right; apply (Go y m); auto; apply in_or_app; auto].
    destruct (real_update A obj dirs false l0 x) as (l3 & b3 & E3 & _ & H3). { constructor; auto. apply Forall_forall. auto. } assert (l3 = l1) as -> by congruence.
    destruct (pareto 0 dirs (obj y) (obj x)) eqn:Ep.
    + apply pareto_exact in Ep; auto. right. apply (Go y x); auto. apply in_or_app. right. left. auto.
    + left. apply H3. left. split; auto. split; [|intros (D & _); discriminate]. intros Hd. apply pareto_exact in Hd; auto. congruence.
  - intros _. split; auto.
  - assert (l' = l) as -> by congruence. apply H. auto.
Qed.
End Kept.

Section End_.
Variables G K S : Type.
Variable dirs : list bool.
Variable move : K -> G -> G.
Variable eval : G -> K -> list Q.
Variable evaluate : G -> list Q.
Variable keys : G -> list K.
Variable good : S -> Prop.
Notation ok v := (length v = length dirs).
Notation le v w := (dominates dirs w v \/ equal_vectors v w).
Hypothesis eval_right : forall g k, eval g k = evaluate (move k g).
Hypothesis lengths : forall g, ok (evaluate g).
Variable explore : sol G -> S -> list nat -> res (list (sol G) * bool * S * list nat).
Hypothesis explore_ok : explorer_ok G K S dirs move eval evaluate keys good explore.
Hypothesis explore_progress : explorer_progress G S dirs evaluate good explore.
Variable select : list (sol G) -> list nat -> res (list nat * list nat).
(** unvisited solutions only, at least one if there is one *)
Hypothesis select_ok : forall a ds sel ds', select a ds = Ok (sel, ds') ->
  (forall i, In i sel -> exists x, nth_error a i = Some x /\ flag x = 0) /\ ((exists x, In x a /\ flag x = 0) -> sel <> []).
Variable C : Type.
Variable continuator : C -> list (sol G) -> bool * C.
Variable starts : list G.
Variable Vs : list (list Q).
Hypothesis all_vectors : forall g, descends G K move starts g -> exists v, In v Vs /\ equal_vectors (evaluate g) v.
Notation settled := (settled G K dirs move evaluate keys starts).
Notation turn := (dmls_turn G S dirs explore false select C continuator).
Notation dmls_loop := (dmls_loop G S dirs explore false select C continuator).
Definition closed (a : list (sol G)) (v : list Q) : Prop := exists m, In m a /\ (dominates dirs (vec m) v \/ (equal_vectors v (vec m) /\ flag m = 1)).
Definition closedb (a : list (sol G)) (v : list Q) : bool := existsb (fun m => pareto 0 dirs v (vec m) || (same_vector 0 v (vec m) && (flag m =? 1))) a.
Lemma equal_ok v w : equal_vectors v w -> length v = length w.
Proof. unfold equal_vectors. induction 1; cbn; auto. Qed.
Lemma settled_ok a m : settled a -> In m a -> ok (vec m).
Proof. intros (_ & Hr & _) Hm. rewrite (proj1 (Hr m Hm)). auto. Qed.
Lemma closedb_spec a v : settled a -> ok v -> (closedb a v = true <-> closed a v).
Proof.
  intros Hs Hv. unfold closedb, closed. rewrite existsb_exists. split; intros (m & Hm & H); exists m; split; auto; pose proof (settled_ok a m Hs Hm) as Hok.
  - apply orb_true_iff in H as [H|H]; [left; apply pareto_exact in H; auto|]. apply andb_true_iff in H as (H & Hf). right. split; [apply same_vector_exact; auto; congruence|]. apply Nat.eqb_eq. auto.
  - apply orb_true_iff. destruct H as [H|(H & Hf)]; [left; apply pareto_exact; auto|]. right. apply andb_true_iff. split; [apply same_vector_exact; auto; congruence|]. apply Nat.eqb_eq. auto.
Qed.
Lemma closed_equal a v w : equal_vectors v w -> closed a v -> closed a w.
Proof.
  intros E (m & Hm & H). exists m. split; auto. destruct H as [H|(H & Hf)]; [left; eapply dominates_equal; eauto using equal_vectors_refl|right; split; auto; eapply equal_vectors_trans; [apply equal_vectors_sym; eauto|auto]].
Qed.
Lemma unvisited_open a x : settled a -> In x a -> flag x = 0 -> ~ closed a (vec x).
Proof.
  intros Hs Hx Hf (m & Hm & H). pose proof (settled_ok a x Hs Hx) as Hok. destruct Hs as (Hc & _). apply In_nth_error in Hx as (i & Hi), Hm as (j & Hj). destruct (Nat.eq_dec i j) as [->|Hne].
  - assert (m = x) as -> by congruence. destruct H as [H|(_ & H)]; [eapply dominates_irrefl; eauto|congruence].
  - destruct (Hc i j x m Hne Hi Hj) as (H1 & H2). tauto.
Qed.
Lemma turn_closes st st' go : settled (arch st) -> good (nstate st) -> turn st = Ok (st', go) -> settled (arch st') /\ good (nstate st') /\
  (forall v, ok v -> closed (arch st) v -> closed (arch st') v) /\ (natural_continue G (arch st) = true -> exists x, In x (arch st) /\ ~ closed (arch st) (vec x) /\ closed (arch st') (vec x)) /\ (go = true -> natural_continue G (arch st') = true).
Proof.
  intros Hs Hg E. destruct (turn_settled G K S dirs move eval evaluate keys good eval_right lengths explore explore_ok false select C continuator starts st st' go Hs Hg E) as (Hs' & Hg' & _). split; auto. split; auto.
  unfold dmls_turn in E. apply rbind_ok in E as ([sel ds] & E0 & E). apply rbind_ok in E as ([[[a1 new] s1] ds1] & E1 & E). apply rbind_ok in E as ([a2 b] & E2 & E).
  destruct (explored_settled G K S dirs move eval evaluate keys good eval_right lengths explore explore_ok false starts (arch st) sel (nstate st) ds a1 new s1 ds1 Hs Hg E1) as (a2' & b' & E2' & H1 & H2 & H3 & F & H5 & Hnew & Hprog). assert (a2' = a2) as -> by congruence.
  destruct (continuator (cstate st) a2) as [go' c] eqn:Ec. assert (st' = State a2 s1 c ds1 /\ go = go' && natural_continue G a2) as (-> & ->) by (split; congruence). cbn [arch nstate] in *. clear E.
  assert (Hfl : forall i x, nth_error (arch st) i = Some x -> exists y, nth_error a1 i = Some y /\ flags G x y). { clear -F. intros i x Hi. revert i Hi. induction F; intros [|i] Hi; cbn in *; try discriminate; [injection Hi as <-; eauto|eauto]. }
  assert (Ok1 : forall y, In y (a1 ++ new) -> ok (vec y)). { intros y Hy. apply in_app_or in Hy as [Hy|Hy]; [|rewrite (proj1 (Hnew y Hy)); auto]. apply In_nth_error in Hy as (i & Hi). destruct (Forall2_at' _ _ _ F i y Hi) as (x & Hx & (_ & B & _)). rewrite B. apply (settled_ok (arch st)); auto. eapply nth_error_In; eauto. }
  assert (Kept : forall y, In y a1 -> In y a2 \/ exists m, In m a2 /\ dominates dirs (vec m) (vec y)).
  { intros y Hy. apply (archive_kept (sol G) vec dirs a1 new a2 b); auto; [apply Forall_forall; auto|]. eapply chain_flags; eauto. apply Hs. }
  assert (Dom : forall v m, ok v -> In m (a1 ++ new) -> dominates dirs (vec m) v -> closed a2 v). { intros v m Hv Hm Hd. destruct (H3 m Hm) as (m' & Hm' & Hl). exists m'. split; auto. left. apply (lt_le dirs _ (vec m)); auto. }
  assert (Flag1 : forall v y, ok v -> In y a1 -> equal_vectors v (vec y) -> flag y = 1 -> closed a2 v).
  { intros v y Hv Hy Heq Hf. destruct (Kept y Hy) as [Hy2|(m & Hm & Hd)]; [exists y; split; auto|]. exists m. split; auto. left. apply (le_lt dirs v (vec y)); auto. apply Ok1. apply in_or_app. auto. }
  split; [|split; [|intros H; apply andb_true_iff in H; tauto]].
  - intros v Hv (m & Hm & H). apply In_nth_error in Hm as (i & Hi). destruct (Hfl i m Hi) as (y & Hy & (_ & B & D)). apply nth_error_In in Hy. destruct H as [H|(H & Hf)].
    + apply (Dom v y); auto; [apply in_or_app; auto|]. rewrite B. auto.
    + apply (Flag1 v y); auto; [rewrite B; auto|]. destruct D as [-> | ->]; auto.
  - intros Hn. destruct (select_ok _ _ _ _ E0) as (Hsel & Hne). assert (Hex : exists x, In x (arch st) /\ flag x = 0).
    { unfold natural_continue in Hn. apply existsb_exists in Hn as (x & Hx & Hf). exists x. split; auto. destruct (proj1 (proj2 Hs) x Hx) as (_ & _ & Hle). destruct (Nat.eqb_spec (flag x) 1); [discriminate|lia]. }
    specialize (Hne Hex). destruct sel as [|i sel]; [congruence|]. destruct (Hsel i (or_introl eq_refl)) as (x & Hx & Hfx). exists x. pose proof (nth_error_In _ _ Hx) as Hxin. split; auto. split; [apply unvisited_open; auto|].
    destruct (Hfl i x Hx) as (y & Hy & (_ & B & D)). assert (Okx : ok (vec x)) by (apply (settled_ok (arch st)); auto). destruct (Hprog explore_progress i x y (or_introl eq_refl) Hx Hy) as [Hfy|(z & Hz & Hd)].
    + apply (Flag1 _ y); auto; [eapply nth_error_In; eauto|]. rewrite B. apply equal_vectors_refl.
    + apply (Dom _ z); auto. apply in_or_app. auto.
Qed.
Definition count (a : list (sol G)) : nat := length (filter (closedb a) (filter (fun v => length v =? length dirs) Vs)).
Lemma filter_lt {X} (f g : X -> bool) l x : (forall v, In v l -> f v = true -> g v = true) -> In x l -> f x = false -> g x = true -> length (filter f l) < length (filter g l).
Proof.
  intros H Hx Ef Eg. induction l as [|y l IH]; [destruct Hx|]. assert (Hle : length (filter f l) <= length (filter g l)). { clear -H. assert (H' : forall v, In v l -> f v = true -> g v = true) by (intros; apply H; [right|]; auto). clear H. induction l as [|y' l IH]; cbn; auto.
    assert (IH' : length (filter f l) <= length (filter g l)) by (apply IH; intros; apply H'; [right|]; auto). destruct (f y') eqn:E; [rewrite (H' y' (or_introl eq_refl) E); cbn; lia|destruct (g y'); cbn; lia]. }
  cbn. destruct Hx as [->|Hx].
  - rewrite Ef, Eg. cbn. lia.
  - assert (IH' : length (filter f l) < length (filter g l)) by (apply IH; auto; intros; apply H; [right|]; auto). destruct (f y) eqn:E; [rewrite (H y (or_introl eq_refl) E); cbn; lia|destruct (g y); cbn; lia].
Qed.
Lemma turn_counts st st' go : settled (arch st) -> good (nstate st) -> natural_continue G (arch st) = true -> turn st = Ok (st', go) -> count (arch st) < count (arch st').
Proof.
  intros Hs Hg Hn E. destruct (turn_closes st st' go Hs Hg E) as (Hs' & _ & Hmono & Hnew & _). destruct (Hnew Hn) as (x & Hx & Ho & Hc). destruct (proj1 (proj2 Hs) x Hx) as (Hr & Hd & _). destruct (all_vectors _ Hd) as (v & Hv & Heq). rewrite <- Hr in Heq.
  assert (Okv : ok v) by (rewrite <- (equal_ok _ _ Heq), Hr; auto).
  unfold count. apply (filter_lt _ _ _ v).
  - intros w Hw. apply filter_In in Hw as (_ & Hw). apply Nat.eqb_eq in Hw. rewrite !closedb_spec by auto. auto.
  - apply filter_In. split; auto. apply Nat.eqb_eq. auto.
  - destruct (closedb (arch st) v) eqn:Ec; auto. exfalso. apply Ho. apply closedb_spec in Ec; auto. eapply closed_equal; [apply equal_vectors_sym|]; eauto.
  - apply closedb_spec; auto. eapply closed_equal; eauto.
Qed.
Lemma filter_short {X} (f : X -> bool) l : length (filter f l) <= length l.
Proof. induction l as [|x l IH]; cbn; [lia|]. destruct (f x); cbn; lia. Qed.
Lemma count_le a : count a <= length Vs.
Proof. unfold count. etransitivity; apply filter_short. Qed.
Lemma enough_turns : forall fuel st, settled (arch st) -> good (nstate st) -> natural_continue G (arch st) = true -> length Vs - count (arch st) < fuel -> forall more, dmls_loop (fuel + more) st = dmls_loop fuel st.
Proof.
  induction fuel as [|fuel IH]; intros st Hs Hg Hn Hf more; [lia|]. cbn [Nat.add DmlsModel.dmls_loop]. destruct (turn st) as [[st1 go]| | |] eqn:E; auto. cbn [rbind]. destruct go; auto.
  destruct (turn_closes st st1 true Hs Hg E) as (Hs1 & Hg1 & _ & _ & Hgo). pose proof (turn_counts st st1 true Hs Hg Hn E). pose proof (count_le (arch st1)). apply IH; auto. lia.
Qed.
(** from any archive: one turn more *)
Lemma enough_turns_any st more : settled (arch st) -> good (nstate st) -> dmls_loop (Datatypes.S (Datatypes.S (length Vs)) + more) st = dmls_loop (Datatypes.S (Datatypes.S (length Vs))) st.
Proof.
  intros Hs Hg. remember (Datatypes.S (length Vs)) as n0 eqn:Hn0. change (Datatypes.S n0 + more) with (Datatypes.S (n0 + more)). cbn [DmlsModel.dmls_loop]. destruct (turn st) as [[st1 go]| | |] eqn:E; auto. cbn [rbind]. destruct go; auto.
  destruct (turn_closes st st1 true Hs Hg E) as (Hs1 & Hg1 & _ & _ & Hgo). apply (enough_turns n0 st1); auto. lia.
Qed.
(** ** nothing fails: it returns *)
Hypothesis select_total : forall a d ds, exists sel ds', select a (d :: ds) = Ok (sel, ds') /\ length ds <= length ds'.
Hypothesis explore_total : forall src s ds, vec src = evaluate (geno src) -> good s -> exists new fl s', explore src s ds = Ok (new, fl, s', ds).
Lemma selected_total : forall sel a dest s ds, Forall (fun x => vec x = evaluate (geno x)) a -> good s -> (forall i, In i sel -> i < length a) -> exists a' dest' s', explore_selected G S explore sel a dest s ds = Ok (a', dest', s', ds).
Proof.
  induction sel as [|i sel IH]; intros a dest s ds Hr Hg Hi; cbn [explore_selected]; [eauto|]. pose proof (Hi i (or_introl eq_refl)) as Hil. destruct (nth_error a i) as [src|] eqn:Es; [|apply nth_error_None in Es; lia]. cbn [of_opt rbind].
  assert (Rs : vec src = evaluate (geno src)) by (rewrite Forall_forall in Hr; apply Hr; eapply nth_error_In; eauto). destruct (explore_total src s ds Rs Hg) as (new & fl & s1 & E1). rewrite E1. cbn [rbind]. destruct (explore_ok src s ds new fl s1 ds Rs Hg E1) as (Hg1 & _).
  destruct fl; cbn [rbind]; [|apply IH; auto; intros; apply Hi; right; auto]. rewrite (upd_set _ _ _ Hil). cbn [of_opt rbind]. apply IH; auto; [|intros j Hj; rewrite set_length; apply Hi; right; auto].
  pose proof (flags_set G a i src Es) as F. clear -F Hr. induction F as [|x y l l' (A & B & D) F IHf]; constructor; inversion_clear Hr; auto. rewrite A, B. auto.
Qed.
Lemma turn_total st : settled (arch st) -> good (nstate st) -> draws st <> [] -> exists st' go, turn st = Ok (st', go) /\ length (draws st) <= Datatypes.S (length (draws st')).
Proof.
  intros Hs Hg Hd. unfold dmls_turn. destruct (draws st) as [|d ds] eqn:Ed; [congruence|]. destruct (select_total (arch st) d ds) as (sel & ds' & E0 & Hlen). rewrite E0. cbn [rbind]. destruct (select_ok _ _ _ _ E0) as (Hsel & _).
  assert (Fr : Forall (fun x => vec x = evaluate (geno x)) (arch st)) by (apply Forall_forall; intros x Hx; apply Hs; auto).
  destruct (selected_total sel (arch st) [] (nstate st) ds' Fr Hg) as (a1 & new & s1 & E1). { intros i Hi. destruct (Hsel i Hi) as (x & Hx & _). apply nth_error_Some. congruence. } rewrite E1. cbn [rbind].
  destruct (explored_settled G K S dirs move eval evaluate keys good eval_right lengths explore explore_ok false starts (arch st) sel (nstate st) ds' a1 new s1 ds' Hs Hg E1) as (a2 & b & E2 & _). rewrite E2. cbn [rbind]. destruct (continuator (cstate st) a2) as [go c]. eexists _, _. split; auto. cbn [draws length]. lia.
Qed.
Lemma returns : forall fuel st, settled (arch st) -> good (nstate st) -> natural_continue G (arch st) = true -> length Vs - count (arch st) < fuel -> fuel <= length (draws st) -> exists st', dmls_loop fuel st = Ok st'.
Proof.
  induction fuel as [|fuel IH]; intros st Hs Hg Hn Hf Hd; [lia|]. cbn [DmlsModel.dmls_loop]. destruct (turn_total st Hs Hg) as (st1 & go & E & Hlen); [intros H; rewrite H in Hd; cbn in Hd; lia|]. rewrite E. cbn [rbind]. destruct go; [|eauto].
  destruct (turn_closes st st1 true Hs Hg E) as (Hs1 & Hg1 & _ & _ & Hgo). pose proof (turn_counts st st1 true Hs Hg Hn E). pose proof (count_le (arch st1)). apply IH; auto; lia.
Qed.
Lemma returns_any st : settled (arch st) -> good (nstate st) -> Datatypes.S (Datatypes.S (length Vs)) <= length (draws st) -> exists st', dmls_loop (Datatypes.S (Datatypes.S (length Vs))) st = Ok st'.
Proof.
  intros Hs Hg Hd. remember (Datatypes.S (length Vs)) as n eqn:Hn0. cbn [DmlsModel.dmls_loop]. destruct (turn_total st Hs Hg) as (st1 & go & E & Hlen); [intros H; rewrite H in Hd; cbn in Hd; lia|]. rewrite E. cbn [rbind]. destruct go; [|eauto].
  destruct (turn_closes st st1 true Hs Hg E) as (Hs1 & Hg1 & _ & _ & Hgo). apply (returns n st1); auto; lia.
Qed.
End End_.

(** ** the selectors and the explorers *)
Section Parts.
Variables G K S : Type.
Lemma unvisited_ok a ds sel ds' : unvisited G a ds = Ok (sel, ds') -> (forall i, In i sel -> exists x, nth_error a i = Some x /\ flag x = 0) /\ ((exists x, In x a /\ flag x = 0) -> sel <> []).
Proof.
  unfold unvisited. intros E. assert (sel = filter (fun i => match nth_error a i with Some x => flag x =? 0 | None => false end) (seq 0 (length a))) as -> by congruence. split.
  - intros i Hi. apply filter_In in Hi as (_ & Hi). destruct (nth_error a i) as [x|]; [|discriminate]. exists x. split; auto. apply Nat.eqb_eq. auto.
  - intros (x & Hx & Hf) E'. apply In_nth_error in Hx as (i & Hi). assert (Hin : In i (filter (fun i => match nth_error a i with Some x => flag x =? 0 | None => false end) (seq 0 (length a)))); [|rewrite E' in Hin; destruct Hin].
    apply filter_In. rewrite Hi, Hf. split; auto. apply in_seq. assert (i < length a) by (apply nth_error_Some; congruence). lia.
Qed.
Variable shuf : nat -> list nat -> list nat.
Hypothesis shuf_ok : forall d l, Permutation l (shuf d l).
Lemma number_unvisited_ok number a ds sel ds' : 1 <= number -> number_unvisited G shuf number a ds = Ok (sel, ds') -> (forall i, In i sel -> exists x, nth_error a i = Some x /\ flag x = 0) /\ ((exists x, In x a /\ flag x = 0) -> sel <> []).
Proof.
  intros Hnum E. unfold number_unvisited in E. apply rbind_ok in E as ([sel0 ds0] & E0 & E). destruct (unvisited_ok _ _ _ _ E0) as (H1 & H2). destruct (number <? length sel0) eqn:El.
  - destruct ds0 as [|d ds0]; [discriminate|]. assert (sel = firstn number (shuf d sel0)) as -> by congruence. split.
    + intros i Hi. apply H1. eapply Permutation_in; [apply Permutation_sym, shuf_ok|]. rewrite <- (firstn_skipn number (shuf d sel0)). apply in_or_app. eauto.
    + intros Hex Hnil. apply Nat.ltb_lt in El. rewrite (Permutation_length (shuf_ok d sel0)) in El. apply (f_equal (@length _)) in Hnil. rewrite firstn_length in Hnil. cbn in Hnil. lia.
  - assert (sel = sel0) as -> by congruence. auto.
Qed.
Lemma unvisited_total a d ds : exists sel ds', unvisited G a (d :: ds) = Ok (sel, ds') /\ length ds <= length ds'.
Proof. unfold unvisited. eexists _, _. split; auto. cbn. lia. Qed.
Lemma number_unvisited_total number a d ds : exists sel ds', number_unvisited G shuf number a (d :: ds) = Ok (sel, ds') /\ length ds <= length ds'.
Proof. unfold number_unvisited, unvisited. cbn [rbind]. destruct (number <? _); eexists _, _; split; eauto. cbn. lia. Qed.
Variable dirs : list bool.
Variable has : G -> bool.
Variable nh : G -> iterator S K.
Variable move : K -> G -> G.
Variable eval : G -> K -> list Q.
Variable keys : G -> list K.
Variable good : S -> Prop.
Variable fuel : nat.
Hypothesis nh_ok : forall g, has g = true -> enumerates good (nh g) (keys g).
Hypothesis nh_quiet : forall g, has g = true -> quiet good (nh g) fuel.
Lemma loops_total src : has (geno src) = true -> forall f s ds o, good s -> continue (nh (geno src)) f s ds = Ok o ->
  (exists new s', exhaustive_loop G K S nh move eval f src s ds = Ok (new, s', ds)) /\ forall k, exists new s', improving_loop G K S dirs nh move eval f src k s ds = Ok (new, s', ds).
Proof.
  intros Hh. destruct (nh_ok _ Hh) as (_ & Hn & _). destruct (nh_quiet _ Hh) as (_ & Hq & _). induction f as [|f IH]; intros s ds o Hg E; cbn [continue exhaustive_loop improving_loop] in *; destruct (i_cont (nh (geno src)) s) eqn:Ec; try discriminate.
  - split; [eauto|]. intros k. destruct (pareto _ _ _ _); cbn; eauto.
  - destruct (Hq s ds Hg Ec) as (s1 & k1 & E1). rewrite E1 in E |- *. cbn [rbind] in *. apply rbind_ok in E as (o1 & E2 & _). destruct (IH s1 ds o1 (Hn _ _ _ _ _ Hg Ec E1) E2) as ((n1 & s2 & E3) & H4). rewrite E3. cbn [rbind]. split; [eauto|]. intros k. destruct (pareto 0 dirs (vec src) (eval (geno src) k)); cbn [negb andb]; [eauto|].
    destruct (H4 k1) as (n2 & s3 & E5). rewrite E5. cbn [rbind]. eauto.
  - split; [eauto|]. intros k. destruct (pareto _ _ _ _); cbn; eauto.
Qed.
Lemma explorers_total src s ds : good s -> (exists new fl s', exhaustive G K S has nh move eval fuel src s ds = Ok (new, fl, s', ds)) /\ exists new fl s', first_improving G K S dirs has nh move eval fuel src s ds = Ok (new, fl, s', ds).
Proof.
  intros Hg. unfold exhaustive, first_improving. destruct (has (geno src)) eqn:Hh; [|split; eauto]. destruct (nh_ok _ Hh) as (Hi & _). destruct (nh_quiet _ Hh) as (Hqi & _ & Hqe). destruct (Hqi s ds Hg) as (s1 & k & E1). destruct (Hqe s ds Hg) as (o & Eo). unfold NeighModel.explore in Eo. rewrite E1 in Eo |- *. cbn [rbind] in *. apply rbind_ok in Eo as (o1 & E2 & _).
  destruct (loops_total src Hh fuel s1 ds o1 (Hi _ _ _ _ _ Hg E1) E2) as ((n1 & s2 & E3) & H4). rewrite E3. destruct (H4 k) as (n2 & s3 & E5). rewrite E5. cbn [rbind]. split; eauto.
Qed.
End Parts.

(** ** neighborhoods that meet the contracts *)
Lemma order_enumerates n : 0 < n -> enumerates (fun s => s < n) (order_nh n) (seq 0 n).
Proof.
  intros Hn. split; [|split].
  - intros s ds s' k ds' _ E. cbn [order_nh i_init] in E. assert (s' = 0) as -> by congruence. auto.
  - intros s ds s' k ds' Hs Hc E. cbn [order_nh i_next i_cont] in *. destruct (Nat.eqb_spec n 0); [lia|]. apply Nat.ltb_lt in Hc. assert (s' = Datatypes.S s) as -> by congruence. lia.
  - assert (H : forall fuel cur ds l s' ds', cur < n -> continue (order_nh n) fuel cur ds = Ok (l, s', ds') -> l = seq (Datatypes.S cur) (n - 1 - cur)).
    { induction fuel as [|f IH]; intros cur ds l s' ds' Hc E; cbn [continue order_nh i_cont i_next] in E; (destruct (Nat.eqb_spec n 0); [lia|]); destruct (Nat.ltb_spec cur (n - 1)); try discriminate;
        try (assert (l = []) as -> by congruence; replace (n - 1 - cur) with 0 by lia; auto).
      cbn [rbind] in E. apply rbind_ok in E as ([[l1 s1] ds1] & E1 & E). assert (l = Datatypes.S cur :: l1) as -> by congruence. assert (Hc' : Datatypes.S cur < n) by lia. rewrite (IH _ _ _ _ _ Hc' E1). replace (n - 1 - cur) with (Datatypes.S (n - 1 - Datatypes.S cur)) by lia. auto. }
    intros fuel s ds l s' ds' _ E k Hk. unfold explore in E. cbn [order_nh i_init rbind] in E. fold (order_nh n) in E. apply rbind_ok in E as ([[l1 s1] ds1] & E1 & E). rewrite (H _ _ _ _ _ _ Hn E1) in E. assert (l = seq 0 (Datatypes.S (n - 1 - 0))) as -> by (cbn [seq]; congruence). replace (Datatypes.S (n - 1 - 0)) with n by lia. auto.
Qed.
Lemma order_quiet n fuel : 0 < n -> n <= fuel -> quiet (fun s => s < n) (order_nh n) fuel.
Proof.
  intros Hn Hf. split; [|split]; try (intros; cbn; eauto; fail). intros s ds _. unfold explore. cbn [order_nh i_init rbind]. fold (order_nh n). rewrite order_continue by lia. cbn [rbind]. eauto.
Qed.
Lemma without_repl_enumerates n : 0 < n -> enumerates (wr_ok n) (without_repl_nh n) (seq 0 n).
Proof.
  intros Hn. assert (D : forall s ds s' k ds', wr_ok n s -> 0 < maxIndex s -> wr_draw s ds = Ok (s', k, ds') -> wr_ok n s' /\ maxIndex s' = maxIndex s - 1 /\ Permutation (firstn (maxIndex s) (indexVector s)) (k :: firstn (maxIndex s') (indexVector s'))).
  { intros s ds s' k ds' W Hm E. destruct ds as [|d ds]; [unfold wr_draw in E; cbn in E; destruct (maxIndex s); discriminate|]. destruct (wr_draw_ok n s d ds W Hm) as (s1 & k1 & E1 & W1 & M1 & _ & _ & P1). rewrite E1 in E. assert (s1 = s' /\ k1 = k) as (-> & ->) by (split; congruence). auto. }
  assert (W0 : forall s, wr_ok n s -> wr_ok n {| maxIndex := n; indexVector := indexVector s |}) by (intros s W; split; cbn; [apply W|lia]).
  split; [|split].
  - intros s ds s' k ds' W E. cbn [without_repl_nh i_init] in E. apply D in E; [tauto|auto|auto].
  - intros s ds s' k ds' W Hc E. cbn [without_repl_nh i_next i_cont] in *. apply Nat.ltb_lt in Hc. apply D in E; [tauto|auto|auto].
  - assert (H : forall fuel s ds l s' ds', wr_ok n s -> continue (without_repl_nh n) fuel s ds = Ok (l, s', ds') -> Permutation l (firstn (maxIndex s) (indexVector s))).
    { induction fuel as [|f IH]; intros s ds l s' ds' W E; cbn [continue without_repl_nh i_cont i_next] in E; destruct (Nat.ltb_spec 0 (maxIndex s)); try discriminate; try (assert (l = []) as -> by congruence; replace (maxIndex s) with 0 by lia; auto).
      apply rbind_ok in E as ([[s1 k] ds1] & E0 & E). apply rbind_ok in E as ([[l1 s2] ds2] & E1 & E). assert (l = k :: l1) as -> by congruence. assert (Hm0 : 0 < maxIndex s) by auto; destruct (D _ _ _ _ _ W Hm0 E0) as (W1 & M1 & P1). eapply Permutation_trans; [|apply Permutation_sym, P1]. constructor. eapply IH; eauto. }
    intros fuel s ds l s' ds' W E k Hk. unfold explore in E. cbn [without_repl_nh i_init] in E. fold (without_repl_nh n) in E. apply rbind_ok in E as ([[s1 k1] ds1] & E0 & E). apply rbind_ok in E as ([[l1 s2] ds2] & E1 & E). assert (l = k1 :: l1) as -> by congruence.
    destruct (D _ _ _ _ _ (W0 s W) Hn E0) as (W1 & M1 & P1). cbn [maxIndex indexVector] in *. eapply Permutation_in; [|exact Hk]. eapply Permutation_trans; [apply Permutation_sym, W|]. rewrite <- (firstn_all2 (n := n) (indexVector s)) by (rewrite (Permutation_length (proj1 W)), seq_length; lia). eapply Permutation_trans; [exact P1|]. constructor. apply Permutation_sym. eapply H; eauto.
Qed.
