(** Iterated local search, annealing, cooling schedules, Metropolis-Hastings. *)
From Coq Require Import List Arith Bool Lia ZArith QArith Qround Qabs Qminmax Lqa Permutation.
From Verif Require Import Outcome Lib OrderSpec OrderLemmas NeighModel LsModel LsSpec LsProofs MetaModel MetaSpec MetaProofs.
From Coq Require Import List.
Import ListNotations.
Open Scope nat_scope.

Section Trace.
Variables (T X C : Type) (e : explorer T X) (c : continuator T C).
(** [P tr s x ds]: after the turns that gave the solutions [tr] *)
Variable P : list T -> T -> X -> list nat -> Prop.
Hypothesis HT : forall tr s x ds b s' x' ds', P tr s x ds -> (tr = [] \/ x_continue e s x = true) -> ls_turn T X e s x ds = Ok (b, s', x', ds') -> P (tr ++ [s']) s' x' ds'.
Lemma loop_draws : forall fuel tr s x cs ds r, P tr s x ds -> (tr = [] \/ x_continue e s x = true) -> ls_loop T X C e c fuel s x cs ds = Ok r ->
  exists s', P (tr ++ r_visited r) s' (r_x r) (r_draws r) /\ last (r_visited r) s = s' /\ r_visited r <> [] /\ r_final r = x_terminate e s' (r_x r) /\
    (r_by_itself r = true -> x_continue e s' (r_x r) = false).
Proof.
  induction fuel as [|f IH]; intros tr s x cs ds r HP Hc H; [discriminate|]. cbn [ls_loop] in H.
  apply rbind_ok in H as ([[[b s'] x'] ds'] & Ht & H). assert (HP' := HT _ _ _ _ _ _ _ _ HP Hc Ht).
  destruct (c_step c s' cs) as [go cs']. destruct (go && x_continue e s' x') eqn:E.
  - apply andb_prop in E as [_ E]. apply rbind_ok in H as (r' & Hr & H). injection H as <-. cbn.
    destruct (IH (tr ++ [s']) s' x' cs' ds' r' HP' (or_intror E) Hr) as (s2 & A1 & A2 & A3 & A5 & A6). exists s2.
    rewrite <- app_assoc in A1. cbn [app] in A1. split; [auto|]. split; [|repeat split; auto; discriminate].
    destruct (r_visited r') eqn:Ev; [destruct A3; reflexivity|]. rewrite <- A2. cbn. clear. revert t s s'. induction l; intros; auto. cbn. apply (IHl a).
  - injection H as <-. cbn. exists s'. repeat split; auto; try discriminate. intros ->. destruct (x_continue e s' x'); [discriminate|auto].
Qed.
(** a loop whose turns are possible and that goes on for fewer than [N] turns *)
Lemma loop_total_n (N cost : nat) (Q : nat -> T -> X -> Prop) :
  (forall n s x ds, Q n s x -> cost <= length ds -> exists b s' x' ds', ls_turn T X e s x ds = Ok (b, s', x', ds') /\ Q (S n) s' x' /\
     length ds <= cost + length ds' /\ (x_continue e s' x' = true -> S n < N)) ->
  forall fuel n s x cs ds, Q n s x -> n < N -> N <= n + fuel -> fuel * cost <= length ds -> exists r, ls_loop T X C e c fuel s x cs ds = Ok r.
Proof.
  intros HQ. induction fuel as [|f IH]; intros n s x cs ds Hn HN Hf Hd; [lia|]. cbn [ls_loop]. cbn in Hd.
  destruct (HQ n s x ds Hn ltac:(lia)) as (b & s' & x' & ds' & -> & HP' & Hl & Hmu). cbn [rbind].
  destruct (c_step c s' cs) as [go cs']. destruct (go && x_continue e s' x') eqn:E; [|eexists; reflexivity].
  apply andb_prop in E as [_ E]. specialize (Hmu E). destruct (IH (S n) s' x' cs' ds' HP') as [r Hr]; [lia|lia|lia|].
  rewrite Hr. cbn. eauto.
Qed.
End Trace.

(** ** iterated local search *)
Section IlsProofs.
Variables (G F P C : Type) (lt : F -> F -> bool) (full : G -> F).
Notation sol := (sol G F).
Variables (p_init : sol -> P -> list nat -> res (P * list nat)) (p_apply : sol -> P -> list nat -> res (sol * P * list nat)).
Variables (p_add p_update : sol -> P -> list nat -> res (P * list nat)).
Variables (ls : sol -> list nat -> res (sol * list nat)) (crit : sol -> sol -> res bool) (c : continuator sol C).
Notation search := (ils_search G F P p_init p_apply p_add p_update ls crit).
Notation i_from := (i_from G F P). Notation i_made := (i_made G F P). Notation i_first := (i_first G F P).
Definition ils_ok (s0 : sol) (tr : list sol) (s : sol) (x : ils G F P) : Prop :=
  s = nth (length tr) (s0 :: tr) s0 /\ length (i_from x) = length tr /\ length (i_made x) = length tr /\ i_first x = (length tr =? 0) /\
  forall k, k < length tr -> ils_turn p_apply ls crit (k =? 0) (nth k (s0 :: tr) s0) (nth k (i_from x) s0) (nth k (i_made x) s0) (nth (S k) (s0 :: tr) s0).
Lemma ils_step s0 tr s x ds b s' x' ds' : ils_ok s0 tr s x -> ls_turn _ _ search s x ds = Ok (b, s', x', ds') -> ils_ok s0 (tr ++ [s']) s' x'.
Proof.
  intros (A1 & A2 & A3 & A4 & A5) H. unfold ls_turn in H. apply rbind_ok in H as ([[s1 x1] ds1] & He & H). apply rbind_ok in H as ([[b1 x2] ds2] & Ha & H). apply rbind_ok in H as ([[s2 x3] ds3] & Hm & H). apply rbind_ok in H as ([x4 ds4] & Hu & H). injection H as <- <- <- <-.
  cbn [x_explore search ils_search] in He. unfold ils_explore in He. apply rbind_ok in He as ([[from p] e1] & Hf & He). apply rbind_ok in He as ([made e2] & Hl & He). injection He as <- <- <-.
  cbn [x_accept search ils_search] in Ha. unfold ils_accept in Ha. cbn [i_cur of_opt rbind] in Ha. apply rbind_ok in Ha as (bb & Hc & Ha). injection Ha as <- <- <-.
  assert (Es : s2 = (if bb then made else s) /\ x3 = Ils G F P false (Some made) p (i_from x ++ [from]) (i_made x ++ [made])) by (destruct bb; [cbn in Hm|]; injection Hm as <- <- <-; auto).
  destruct Es as [-> ->]. clear Hm. cbn [x_update search ils_search] in Hu. unfold ils_update in Hu. apply rbind_ok in Hu as ([p1 e3] & _ & Hu). apply rbind_ok in Hu as ([p2 e4] & _ & Hu). injection Hu as <- <-.
  set (t := if bb then made else s) in *. unfold ils_ok. cbn [MetaModel.i_from MetaModel.i_made MetaModel.i_first]. rewrite !app_length, A2, A3. cbn [length].
  assert (N0 : forall k, k <= length tr -> nth k (s0 :: tr ++ [t]) s0 = nth k (s0 :: tr) s0) by (intros k Hk; change (s0 :: tr ++ [t]) with ((s0 :: tr) ++ [t]); rewrite app_nth1; cbn; auto; lia).
  assert (N1 : nth (S (length tr)) (s0 :: tr ++ [t]) s0 = t) by (cbn; rewrite app_nth2, Nat.sub_diag; auto).
  split; [rewrite Nat.add_1_r, N1; auto|]. split; [auto|]. split; [auto|]. split. { rewrite Nat.add_1_r. reflexivity. }
  intros k Hk. destruct (Nat.eq_dec k (length tr)) as [E|E].
  - subst k. rewrite N1, N0 by lia. rewrite (app_nth2 (i_from x)), (app_nth2 (i_made x)) by lia. rewrite A2, A3, Nat.sub_diag. change (nth 0 [from] s0) with from. change (nth 0 [made] s0) with made. rewrite <- A1. split; [|split].
    + rewrite <- A4. destruct (i_first x); [injection Hf as -> _ _; auto|eauto].
    + eauto.
    + exists bb. split; auto.
  - rewrite !N0 by lia. rewrite (app_nth1 (i_from x)), (app_nth1 (i_made x)) by lia. apply A5. lia.
Qed.
Lemma ils_run fuel s x cs ds r : i_from x = [] -> i_made x = [] -> local_search full search c fuel s x cs ds = Ok r ->
  nth_error (r_visited r) 0 = Some (started full s) /\ 1 <= turns r /\ r_by_itself r = false /\ r_final r = last (r_visited r) s /\
  length (i_from (r_x r)) = turns r /\ length (i_made (r_x r)) = turns r /\
  forall k, k < turns r -> ils_turn p_apply ls crit (k =? 0) (nth k (r_visited r) s) (nth k (i_from (r_x r)) s) (nth k (i_made (r_x r)) s) (nth (S k) (r_visited r) s).
Proof.
  intros F0 M0 H. unfold local_search in H. fold (started full s) in H. unfold ls_run in H. apply rbind_ok in H as ([x1 ds1] & Hi & H). apply rbind_ok in H as (r1 & Hr & H). injection H as <-.
  cbn [x_init search ils_search] in Hi. unfold ils_init in Hi. apply rbind_ok in Hi as ([p e1] & _ & Hi). injection Hi as <- <-.
  destruct (loop_trace _ _ _ search c (ils_ok (started full s))) with (fuel := fuel) (tr := @nil sol) (s := started full s) (x := Ils G F P true (i_cur G F P x) p (i_from x) (i_made x)) (cs := c_init c (started full s) cs) (ds := e1) (r := r1) as (s' & x' & A & Al & An & Ax & Af & Ai).
  - intros tr sa xa da b sb xb db HP _ Ht. eapply ils_step; eauto.
  - unfold ils_ok. cbn [MetaModel.i_from MetaModel.i_made MetaModel.i_first]. rewrite F0, M0. cbn. repeat split; auto; lia.
  - auto.
  - exact Hr.
  - cbn [app] in A. destruct A as (A1 & A2 & A3 & A4 & A5). unfold turns. cbn [r_visited r_x r_final r_by_itself length nth_error]. cbn [Nat.sub]. rewrite ?Nat.sub_0_r, Ax. split; auto. split; [destruct (r_visited r1); [congruence|cbn; lia]|]. split.
    { destruct (r_by_itself r1); [discriminate (Ai eq_refl)|reflexivity]. }
    split. { rewrite Af. cbn [x_terminate search ils_search]. rewrite <- Al. destruct (r_visited r1) as [|v l]; [congruence|]. cbn [last]. clear. revert v. induction l as [|w l IH]; intros v; auto. cbn. apply (IH w). }
    split; auto. split; auto. intros k Hk. specialize (A5 k Hk).
    rewrite (nth_indep (started full s :: r_visited r1) s (started full s)) by (cbn; lia). rewrite (nth_indep (i_from x') s (started full s)) by lia. rewrite (nth_indep (i_made x') s (started full s)) by lia. rewrite (nth_indep (started full s :: r_visited r1) s (started full s)) by (cbn; lia). exact A5.
Qed.
Lemma ils_nth_last (s0 : sol) tr : nth (length tr) (s0 :: tr) s0 = last tr s0.
Proof.
  destruct tr as [|a tr]; [reflexivity|]. cbn [length nth]. revert a.
  induction tr as [|b tr IH]; intros a; [reflexivity|]. cbn [length nth last]. apply IH.
Qed.
Lemma ils_remembers fuel s x cs ds r : i_from x = [] -> i_made x = [] -> local_search full search c fuel s x cs ds = Ok r ->
  remembers p_init p_apply p_add p_update crit (i_pert G F P x) (started full s) (tl (r_visited r)) (i_pert G F P (r_x r)).
Proof.
  intros F0 M0 H. unfold local_search in H. fold (started full s) in H. unfold ls_run in H. apply rbind_ok in H as ([x1 ds1] & Hi & H). apply rbind_ok in H as (r1 & Hr & H). injection H as <-.
  cbn [x_init search ils_search] in Hi. unfold ils_init in Hi. apply rbind_ok in Hi as ([p e1] & Hp & Hi). injection Hi as <- <-.
  destruct (loop_trace _ _ _ search c (fun tr s1 x1 => ils_ok (started full s) tr s1 x1 /\ remembers p_init p_apply p_add p_update crit (i_pert G F P x) (started full s) tr (i_pert G F P x1)))
    with (fuel := fuel) (tr := @nil sol) (s := started full s) (x := Ils G F P true (i_cur G F P x) p (i_from x) (i_made x)) (cs := c_init c (started full s) cs) (ds := e1) (r := r1) as (s' & x' & A & Al & An & Ax & Af & Ai).
  - intros tr sa xa da b sb xb db [HP HM] _ Ht. split; [eapply ils_step; eauto|].
    destruct HP as (A1 & _ & _ & A4 & _). rewrite ils_nth_last in A1. subst sa.
    unfold ls_turn in Ht. apply rbind_ok in Ht as ([[s1 x1] ds1] & He & Ht). apply rbind_ok in Ht as ([[b1 x2] ds2] & Ha & Ht). apply rbind_ok in Ht as ([[s2 x3] ds3] & Hm & Ht). apply rbind_ok in Ht as ([x4 ds4] & Hu & Ht). injection Ht as <- <- <- <-.
    cbn [x_explore search ils_search] in He. unfold ils_explore in He. apply rbind_ok in He as ([[from q] e2] & Hf & He). apply rbind_ok in He as ([made e3] & Hl & He). injection He as <- <- <-.
    cbn [x_accept search ils_search] in Ha. unfold ils_accept in Ha. cbn [i_cur of_opt rbind] in Ha. apply rbind_ok in Ha as (bb & Hc & Ha). injection Ha as <- <- <-.
    assert (Es : s2 = (if bb then made else last tr (started full s)) /\ x3 = Ils G F P false (Some made) q (i_from xa ++ [from]) (i_made xa ++ [made])) by (destruct bb; [cbn in Hm|]; injection Hm as <- <- <-; auto).
    destruct Es as [-> ->]. clear Hm. cbn [x_update search ils_search] in Hu. unfold ils_update in Hu. cbn [MetaModel.i_pert] in Hu. apply rbind_ok in Hu as ([p1 e4] & Hadd & Hu). apply rbind_ok in Hu as ([p2 e5] & Hupd & Hu). injection Hu as <- <-.
    cbn [MetaModel.i_pert].
    assert (Happ : if length tr =? 0 then q = i_pert G F P xa else exists d d', p_apply (last tr (started full s)) (i_pert G F P xa) d = Ok (from, q, d')).
    { rewrite <- A4. destruct (i_first xa); [injection Hf as _ <- _; reflexivity|eauto]. }
    assert (Hadd' : exists d d', if bb then p_add made q d = Ok (p1, d') else p1 = q).
    { destruct bb; [eauto|]. injection Hadd as -> _. exists [], []. reflexivity. }
    destruct Hadd' as (d2 & d2' & Hadd').
    destruct (length tr =? 0) eqn:E0.
    + eapply (remembers_turn p_init p_apply p_add p_update crit _ _ tr (i_pert G F P xa) from q made bb p1 p2 [] []); eauto. rewrite E0. exact Happ.
    + destruct Happ as (d1 & d1' & Happ). eapply (remembers_turn p_init p_apply p_add p_update crit _ _ tr (i_pert G F P xa) from q made bb p1 p2 d1 d1'); eauto. rewrite E0. exact Happ.
  - split.
    + unfold ils_ok. cbn [MetaModel.i_from MetaModel.i_made MetaModel.i_first]. rewrite F0, M0. cbn. repeat split; auto; lia.
    + cbn [MetaModel.i_pert]. exact (remembers_start _ _ _ _ _ _ _ _ _ _ Hp).
  - auto.
  - exact Hr.
  - cbn [app] in A. destruct A as [_ A]. cbn [r_visited r_x tl]. rewrite Ax. exact A.
Qed.
End IlsProofs.
Lemma nth_eq_ext {A} (d : A) : forall l l', length l = length l' -> (forall k, k < length l -> nth k l d = nth k l' d) -> l = l'.
Proof.
  induction l as [|a l IH]; intros [|b l'] L H; cbn in *; try discriminate; auto. f_equal; [apply (H 0); lia|]. apply IH; [lia|]. intros k Hk. apply (H (S k)). lia.
Qed.
(** with the criterion that always accepts, the solutions are those of the local search *)
Lemma ils_always {G F P C} full p_init p_apply p_add p_update ls (c : continuator (sol G F) C) fuel s (x : ils G F P) cs ds r : i_from _ _ _ x = [] -> i_made _ _ _ x = [] ->
  local_search full (ils_search G F P p_init p_apply p_add p_update ls (always_accept G F)) c fuel s x cs ds = Ok r -> r_visited r = started full s :: i_made _ _ _ (r_x r).
Proof.
  intros F0 M0 H. destruct (ils_run _ _ _ _ _ _ _ _ _ _ _ _ _ _ _ _ _ _ F0 M0 H) as (A1 & A2 & A3 & A4 & A5 & A6 & A7).
  destruct (r_visited r) as [|v l] eqn:E; [discriminate|]. cbn in A1. injection A1 as ->. f_equal. unfold turns in *. rewrite E in *. cbn [length Nat.sub] in *. rewrite ?Nat.sub_0_r in *.
  apply (nth_eq_ext s); auto. intros k Hk. destruct (A7 k Hk) as (_ & _ & b & Eb & Es). cbn in Eb. injection Eb as <-. exact Es.
Qed.
(** with the criterion that accepts the better one, the solution is at any time the best so far *)
Lemma ils_better {G F P C} lt full p_init p_apply p_add p_update ls (c : continuator (sol G F) C) fuel s (x : ils G F P) cs ds r : strict_weak_order lt -> i_from _ _ _ x = [] -> i_made _ _ _ x = [] ->
  local_search full (ils_search G F P p_init p_apply p_add p_update ls (better_accept G F lt)) c fuel s x cs ds = Ok r ->
  forall k, k <= turns r -> best_stored lt (started full s :: firstn k (i_made _ _ _ (r_x r))) (nth k (r_visited r) s).
Proof.
  intros LT F0 M0 H. destruct (ils_run _ _ _ _ _ _ _ _ _ _ _ _ _ _ _ _ _ _ F0 M0 H) as (A1 & A2 & A3 & A4 & A5 & A6 & A7).
  induction k as [|k IH]; intros Hk.
  - destruct (r_visited r) as [|v l] eqn:E; [discriminate|]. cbn in A1. injection A1 as ->. cbn. split; [left; auto|]. destruct (fit (started full s)) as [f|] eqn:Ef; [|destruct (started_fit G F full s Ef)].
    exists f. split; auto. intros v g [<-|[]] Hg. rewrite Ef in Hg. injection Hg as <-. apply LT.
  - specialize (IH ltac:(lia)). destruct (A7 k ltac:(lia)) as (_ & _ & b & Eb & Es). unfold better_accept in Eb. apply rbind_ok in Eb as (f & Hf & Eb). apply rbind_ok in Eb as (g & Hg & Eb). injection Eb as <-.
    assert (L : firstn (S k) (i_made _ _ _ (r_x r)) = firstn k (i_made _ _ _ (r_x r)) ++ [nth k (i_made _ _ _ (r_x r)) s]).
    { assert (Hl : k < length (i_made _ _ _ (r_x r))) by lia. revert Hl. generalize (i_made _ _ _ (r_x r)). clear. induction k; intros [|a l] Hl; cbn in *; try lia; auto. f_equal. apply IHk. lia. }
    rewrite L, Es. unfold fitness in Hf, Hg. destruct (fit (nth k (r_visited r) s)) eqn:Ef; [|discriminate]. injection Hf as ->. destruct (fit (nth k (i_made _ _ _ (r_x r)) s)) eqn:Eg; [|discriminate]. injection Hg as ->.
    rewrite app_comm_cons. apply best_extend; auto.
Qed.

(** ** annealing *)
Section Anneal.
Variables (G F S I C : Type) (lt : F -> F -> bool) (Sp : G -> Prop) (nbrs : G -> list I) (has : G -> bool) (nh : G -> iterator S I).
Variables (Inv : S -> Prop) (Prog : G -> S -> Prop) (xfuel cost : nat).
Variables (full : G -> F) (neval : sol G F -> I -> res F) (move : I -> G -> res G) (c : continuator (sol G F) C).
Variables (dbl : F -> Q) (exp : Q -> Q).
Hypothesis NH : neighborhood_ok Sp nbrs has nh Inv Prog xfuel cost.
Hypothesis MV : moves_ok Sp nbrs full neval move.
Notation sol := (sol G F).
Notation good := (good G F I Sp nbrs full move).
Notation hc_ok := (hc_ok G F S I Sp Inv full).
Notation h_nh := (h_nh F S I).
Variables (K : Type) (sch : cooling K).
Notation sa := (sa F S I K). Notation a_hc := (a_hc F S I K). Notation a_temp := (a_temp F S I K). Notation a_cool := (a_cool F S I K).
Notation anneal := (sa_search G F lt S I has nh neval move dbl exp K sch).

Lemma neighbor_drawn s x ds y ds1 : hc_ok s x -> has (geno s) = true -> random_neighbor G F S I has nh neval s x ds = Ok (y, ds1) ->
  exists p, h_sel _ _ _ y = Some p /\ good s p /\ Inv (h_nh y) /\ i_init (nh (geno s)) (h_nh x) ds = Ok (h_nh y, fst p, ds1).
Proof.
  intros (HS & HE & HI) Hh H. unfold random_neighbor in H. rewrite Hh in H. apply rbind_ok in H as ([[p n] e1] & Hst & H). injection H as <- <-.
  destruct (start_spec G F S I Sp nbrs has nh Inv Prog xfuel cost full neval move NH MV s _ _ _ _ _ HS HE Hh HI Hst) as (Hi & Hp & HP & Hl).
  exists p. cbn. repeat split; auto; try apply Hp. apply (nh_inv _ _ _ _ _ _ _ _ NH (geno s)); auto.
Qed.
Lemma below_lt a b : below a b = true <-> (a < b)%Q.
Proof. unfold below. rewrite negb_true_iff, <- not_true_iff_false, Qle_bool_iff. split; [apply Qnot_le_lt|apply Qlt_not_le]. Qed.
Lemma alpha_abs (f1 f2 t : Q) : exponential exp -> ((if below f1 f2 then exp ((f1 - f2) / t) else exp ((f2 - f1) / t)) == exp (- (Qabs (f1 - f2) / t)))%Q.
Proof.
  intros (E1 & _). destruct (below f1 f2) eqn:B; apply E1.
  - apply below_lt in B. rewrite Qabs_neg by lra. unfold Qdiv. ring.
  - assert (B' : ~ (f1 < f2)%Q) by (rewrite <- below_lt; congruence). apply Qnot_lt_le in B'. rewrite Qabs_pos by lra. unfold Qdiv. ring.
Qed.
Lemma sa_turn_spec s x ds b s' x' ds' : exponential exp -> hc_ok s (a_hc x) -> ls_turn _ _ anneal s x ds = Ok (b, s', x', ds') ->
  proposal full nbrs nh move (metropolis lt dbl exp (a_temp x)) s ds b s' ds' /\ hc_ok s' (a_hc x') /\ k_update sch (a_temp x) b (a_cool x) = (a_temp x', a_cool x').
Proof.
  intros EXP HO H. destruct HO as (HS & HE & HI). unfold ls_turn in H. apply rbind_ok in H as ([[s1 x1] ds1] & He & H). apply rbind_ok in H as ([[b1 x2] ds2] & Ha & H). apply rbind_ok in H as ([[s2 x3] ds3] & Hm & H). apply rbind_ok in H as ([x4 ds4] & Hu & H). injection H as <- <- <- <-.
  cbn [x_explore sa_search] in He. apply rbind_ok in He as ([y e1] & Hn & He). injection He as <- <- <-. cbn [x_update sa_search] in Hu.
  destruct (has (geno s)) eqn:Hh.
  - destruct (neighbor_drawn s (a_hc x) ds y e1 ltac:(repeat split; auto) Hh Hn) as (p & Hp & Gp & Iy & Hi).
    cbn [x_accept sa_search] in Ha. unfold sa_accept in Ha. cbn [MetaModel.a_hc MetaModel.a_temp MetaModel.a_cool] in Ha. rewrite Hh, Hp in Ha. unfold fitness in Ha. rewrite HE in Ha. cbn [get of_opt rbind] in Ha.
    apply rbind_ok in Ha as ([bb e2] & Hb & Ha). injection Ha as <- <- <-.
    destruct (good_move G F I Sp nbrs full move s p Gp) as (g' & (j & _ & _) & Hg' & Hfp & Hmv). destruct Gp as (Gi & g2 & Gm & _ & Gf).
    assert (g2 = g'). { unfold move_to in Hmv. rewrite Gm in Hmv. cbn in Hmv. injection Hmv as -> _. auto. } subst g2.
    assert (R : metropolis lt dbl exp (a_temp x) (full (geno s)) (full g') e1 bb e2).
    { unfold metropolis. rewrite <- Gf. destruct (lt (full (geno s)) (snd p)); [injection Hb as <- <-; auto|]. apply rbind_ok in Hb as ([u e3] & Hu1 & Hb). injection Hb as <- <-.
      unfold uniform01 in Hu1. destruct e1 as [|d e1']; [discriminate|]. injection Hu1 as <- <-. exists d. split; auto. rewrite below_lt. fold (u01 d).
      set (al := if below (dbl (snd p)) (dbl (full (geno s))) then exp _ else exp _).
      assert (Ea : (al == exp (- (Qabs (dbl (snd p) - dbl (full (geno s))) / a_temp x)))%Q). { apply alpha_abs; auto. }
      rewrite Ea. reflexivity. }
    assert (Es : s2 = (if bb then Sol g' (Some (full g')) else s) /\ x3 = Sa _ _ _ _ (Hc _ _ _ (h_nh y) (Some p) bb) (a_temp x) (a_cool x) /\ ds3 = e2).
    { destruct bb; [|injection Hm as <- <- <-; auto]. cbn [x_move sa_search] in Hm. unfold hc_move in Hm. cbn [MetaModel.a_hc LsModel.h_sel] in Hm. unfold get in Hm. cbn [rbind] in Hm. rewrite Hmv in Hm. cbn in Hm. injection Hm as <- <- <-. auto. }
    destruct Es as (-> & -> & ->). cbn [MetaModel.a_hc MetaModel.a_temp MetaModel.a_cool] in Hu. destruct (k_update sch (a_temp x) bb (a_cool x)) as [t k] eqn:Ek. injection Hu as <- <-.
    split; [|split].
    + right. exists (h_nh (a_hc x)), (fst p), (h_nh y), e1, g'. repeat split; auto.
    + cbn. destruct bb; repeat split; auto.
    + reflexivity.
  - unfold random_neighbor in Hn. rewrite Hh in Hn. injection Hn as <- <-. cbn [x_accept sa_search] in Ha. unfold sa_accept in Ha. rewrite Hh in Ha. injection Ha as <- <- <-. cbn in Hm. injection Hm as <- <- <-. cbn [MetaModel.a_hc MetaModel.a_temp MetaModel.a_cool] in Hu.
    destruct (k_update sch (a_temp x) false (a_cool x)) as [t k] eqn:Ek. injection Hu as <- <-. split; [|split].
    + left. repeat split; auto. apply (has_false G F S I Sp nbrs has nh Inv Prog xfuel cost NH s HS Hh).
    + cbn. repeat split; auto.
    + reflexivity.
Qed.
Lemma after_snoc k0 h b : after sch k0 (h ++ [b]) = k_update sch (fst (after sch k0 h)) b (snd (after sch k0 h)).
Proof. unfold after. rewrite fold_left_app. reflexivity. Qed.
Definition sa_R (k0 : K) (h : list bool) (s : sol) (ds : list nat) (b : bool) (s' : sol) (ds' : list nat) : Prop :=
  (h = [] \/ goes_on sch k0 h = true) /\ proposal full nbrs nh move (metropolis lt dbl exp (fst (after sch k0 h))) s ds b s' ds'.
Definition sa_P (k0 : K) (s0 : sol) (ds0 : list nat) (tr : list sol) (s : sol) (x : sa) (ds : list nat) : Prop :=
  hc_ok s (a_hc x) /\ Forall (evaluated full) tr /\ exists h l, traced (sa_R k0) s0 ds0 h (s0 :: tr) ds /\ s0 :: tr = l ++ [s] /\ length h = length tr /\ after sch k0 h = (a_temp x, a_cool x).
Lemma started_ok s : Sp (geno s) -> not_stale full s -> Sp (geno (started full s)) /\ evaluated full (started full s).
Proof. intros HS [HN|HN]; unfold started, evaluated in *; rewrite HN; auto. Qed.
Lemma sa_run fuel s x cs ds r : exponential exp -> Sp (geno s) -> not_stale full s -> Inv (h_nh (a_hc x)) -> local_search full anneal c fuel s x cs ds = Ok r ->
  exists h, length h = turns r /\ 1 <= turns r /\ traced (sa_R (a_cool x)) (started full s) ds h (r_visited r) (r_draws r) /\ Forall (evaluated full) (r_visited r) /\
    r_final r = last (r_visited r) s /\ (r_by_itself r = true -> goes_on sch (a_cool x) h = false).
Proof.
  intros EXP HS HN HI H. destruct (started_ok s HS HN) as [HS1 HE1]. unfold local_search in H. fold (started full s) in H. unfold ls_run in H. apply rbind_ok in H as ([x1 ds1] & Hi & H). apply rbind_ok in H as (r1 & Hr & H). injection H as <-.
  cbn [x_init sa_search] in Hi. destruct (k_init sch (a_cool x)) as [t k] eqn:Ek. injection Hi as <- <-.
  destruct (loop_draws _ _ _ anneal c (sa_P (a_cool x) (started full s) ds)) with (fuel := fuel) (tr := @nil sol) (s := started full s) (x := Sa F S I K (Hc F S I (h_nh (a_hc x)) (h_sel F S I (a_hc x)) false) t k) (cs := c_init c (started full s) cs) (ds := ds) (r := r1) as (s' & A & Al & An & Af & Ai).
  - intros tr sa xa da b sb xb db (P1 & P2 & h & l & P3 & P4 & P5 & P6) Hc Ht. destruct (sa_turn_spec sa xa da b sb xb db EXP P1 Ht) as (T1 & T2 & T3).
    split; [auto|]. split; [apply Forall_app; split; auto; constructor; auto; apply T2|]. exists (h ++ [b]), (l ++ [sa]). rewrite app_comm_cons, P4. split; [|split; [auto|split]].
    + rewrite <- app_assoc. apply traced_step with (ds := da); [rewrite <- P4; auto|]. split.
      * destruct Hc as [->|Hc]; [left; destruct h; auto; discriminate|right]. unfold goes_on. rewrite P6. exact Hc.
      * rewrite P6. exact T1.
    + rewrite !app_length. cbn. lia.
    + rewrite after_snoc, P6. exact T3.
  - split; [repeat split; auto|]. split; [constructor|]. exists [], []. split; [apply traced_nil|]. split; auto.
  - auto.
  - exact Hr.
  - destruct A as (P1 & P2 & h & l & P3 & P4 & P5 & P6). cbn [app] in *. exists h. unfold turns. cbn [r_visited r_draws r_final r_by_itself length Nat.sub]. rewrite ?Nat.sub_0_r. split; [auto|]. split; [destruct (r_visited r1); [congruence|cbn; lia]|]. split; [auto|]. split; [constructor; auto|]. split.
    + rewrite Af. cbn [x_terminate sa_search]. rewrite <- Al. destruct (r_visited r1) as [|v l0]; [congruence|]. cbn [last]. clear. revert v. induction l0 as [|w l0 IH]; intros v; auto. cbn. apply (IH w).
    + intros Hb. apply Ai in Hb. unfold goes_on. rewrite P6. exact Hb.
Qed.
(** a turn is possible *)
Lemma sa_turn_total s x ds : hc_ok s (a_hc x) -> cost + 1 <= length ds -> exists b s' x' ds', ls_turn _ _ anneal s x ds = Ok (b, s', x', ds') /\ length ds <= (cost + 1) + length ds'.
Proof.
  intros (HS & HE & HI) Hd. unfold ls_turn. cbn [x_explore sa_search]. unfold random_neighbor. destruct (has (geno s)) eqn:Hh.
  - destruct (start_total G F S I Sp nbrs has nh Inv Prog xfuel cost full neval move NH MV s (h_nh (a_hc x)) ds HS HE Hh HI ltac:(lia)) as (p & n' & ds' & xs & n'' & ds'' & Hst & Hco & Hl).
    destruct (start_spec G F S I Sp nbrs has nh Inv Prog xfuel cost full neval move NH MV s _ _ _ _ _ HS HE Hh HI Hst) as (Hi & Hp & HP & Hl2).
    destruct (good_move G F I Sp nbrs full move s p Hp) as (g' & _ & Hg' & Hfp & Hmv).
    assert (Hl3 : length ds'' <= length ds').
    { assert (HP' := HP). revert Hco HP'. clear -NH HS. revert n' ds' xs n'' ds''. generalize xfuel. intros k. revert NH. intros NH. induction k; intros n' ds' xs n'' ds'' Hco HP'; cbn [continue] in Hco; destruct (i_cont (nh (geno s)) n') eqn:Ec; try discriminate; try (injection Hco as <- <- <-; lia).
      apply rbind_ok in Hco as ([[n1 i] e1] & Hn & Hco). apply rbind_ok in Hco as ([[ys n2] e2] & Hc2 & Hco). injection Hco as <- <- <-. destruct (nh_next _ _ _ _ _ _ _ _ NH _ _ _ _ _ _ HS HP' Ec Hn) as (Q1 & _ & Q2). specialize (IHk _ _ _ _ _ Hc2 Q1). lia. }
    rewrite Hst. cbn [rbind]. cbn [x_accept x_move x_update sa_search]. unfold sa_accept. cbn [MetaModel.a_hc MetaModel.a_temp MetaModel.a_cool LsModel.h_sel LsModel.h_nh]. rewrite Hh. cbn [get of_opt rbind]. unfold fitness. rewrite HE. cbn [rbind].
    assert (Fin : forall b e, length ds' <= 1 + length e -> exists b' s' x' e', (let! (s2, x3, ds3) := (if b : bool then let! (s', y, ds1) := hc_move G F S I move s (MetaModel.a_hc F S I K (Sa F S I K (Hc F S I n' (Some p) b) (a_temp x) (a_cool x))) e in Ok (s', Sa F S I K y (MetaModel.a_temp F S I K (Sa F S I K (Hc F S I n' (Some p) b) (a_temp x) (a_cool x))) (MetaModel.a_cool F S I K (Sa F S I K (Hc F S I n' (Some p) b) (a_temp x) (a_cool x))), ds1) else Ok (s, Sa F S I K (Hc F S I n' (Some p) b) (a_temp x) (a_cool x), e)) in let! (x4, ds4) := (let (t, k) := k_update sch (a_temp x3) b (a_cool x3) in Ok (Sa F S I K (a_hc x3) t k, ds3)) in Ok (b, s2, x4, ds4)) = Ok (b', s', x', e') /\ length ds <= (cost + 1) + length e').
    { intros b e He. destruct b; cbn [MetaModel.a_hc MetaModel.a_temp MetaModel.a_cool hc_move LsModel.h_sel get of_opt rbind].
      - unfold hc_move. cbn [LsModel.h_sel get of_opt rbind]. rewrite Hmv. cbn [rbind MetaModel.a_temp MetaModel.a_cool]. destruct (k_update sch (a_temp x) true (a_cool x)). cbn [rbind]. repeat eexists. lia.
      - destruct (k_update sch (a_temp x) false (a_cool x)). cbn [rbind]. repeat eexists. lia. }
    destruct (lt (full (geno s)) (snd p)); cbn [rbind].
    + apply (Fin true ds'). lia.
    + destruct ds' as [|d e]; [cbn in Hl3; lia|]. unfold uniform01. cbn [rbind]. cbn [length] in *. apply (Fin (below _ _) e). lia.
  - cbn [rbind]. cbn [x_accept x_move x_update sa_search]. unfold sa_accept. cbn [MetaModel.a_hc MetaModel.a_temp MetaModel.a_cool LsModel.h_acc]. rewrite Hh. cbn [rbind]. cbn [MetaModel.a_hc MetaModel.a_temp MetaModel.a_cool]. destruct (k_update sch (a_temp x) false (a_cool x)). cbn [rbind]. repeat eexists. lia.
Qed.
(** the schedule stops after fewer than [N] turns whatever the answers: so does the search *)
Lemma sa_total N s x cs ds : exponential exp -> Sp (geno s) -> not_stale full s -> Inv (h_nh (a_hc x)) -> 1 <= N -> (forall h, N <= length h -> goes_on sch (a_cool x) h = false) -> N * (cost + 1) <= length ds ->
  exists r, local_search full anneal c N s x cs ds = Ok r.
Proof.
  intros EXP HS HN HI H1 HG Hd. destruct (started_ok s HS HN) as [HS1 HE1]. unfold local_search. fold (started full s). unfold ls_run. cbn [x_init sa_search]. destruct (k_init sch (a_cool x)) as [t k] eqn:Ek. cbn [rbind].
  destruct (loop_total_n _ _ _ anneal c N (cost + 1) (fun n s' x' => hc_ok s' (a_hc x') /\ exists h, length h = n /\ after sch (a_cool x) h = (a_temp x', a_cool x'))) with (fuel := N) (n := 0) (s := started full s) (x := Sa F S I K (Hc F S I (h_nh (a_hc x)) (h_sel F S I (a_hc x)) false) t k) (cs := c_init c (started full s) cs) (ds := ds) as (r & Er); auto.
  - intros n sa xa da (Q1 & h & Q2 & Q3) Hda. destruct (sa_turn_total sa xa da Q1 Hda) as (b & sb & xb & db & Ht & Hl). exists b, sb, xb, db. split; [auto|]. destruct (sa_turn_spec sa xa da b sb xb db EXP Q1 Ht) as (T1 & T2 & T3).
    assert (Ha : after sch (a_cool x) (h ++ [b]) = (a_temp xb, a_cool xb)) by (rewrite after_snoc, Q3; auto).
    split; [split; auto; exists (h ++ [b]); split; auto; rewrite app_length; cbn; lia|]. split; [auto|]. intros Hc. destruct (Nat.lt_ge_cases (Datatypes.S n) N); auto. exfalso.
    assert (Hf := HG (h ++ [b]) ltac:(rewrite app_length; cbn; lia)). unfold goes_on in Hf. rewrite Ha in Hf. cbn in Hf. cbn in Hc. congruence.
  - split; [repeat split; auto|]. exists []. split; auto.
  - rewrite Er. cbn. eauto.
Qed.
End Anneal.

(** ** Metropolis-Hastings *)
Section Mh.
Variables (G F S I C : Type) (lt : F -> F -> bool) (Sp : G -> Prop) (nbrs : G -> list I) (has : G -> bool) (nh : G -> iterator S I).
Variables (Inv : S -> Prop) (Prog : G -> S -> Prop) (xfuel cost : nat).
Variables (full : G -> F) (neval : sol G F -> I -> res F) (move : I -> G -> res G) (c : continuator (sol G F) C) (dbl : F -> Q).
Hypothesis NH : neighborhood_ok Sp nbrs has nh Inv Prog xfuel cost.
Hypothesis MV : moves_ok Sp nbrs full neval move.
Hypothesis POS : forall g, Sp g -> (0 < dbl (full g))%Q.
Notation sol := (sol G F).
Notation hc_ok := (hc_ok G F S I Sp Inv full).
Notation h_nh := (h_nh F S I).
Notation metro := (mh_search G F lt S I has nh neval move dbl).
Lemma mh_turn_spec nb s x ds b s' x' ds' : hc_ok s (fst x) -> ls_turn _ _ (metro nb) s x ds = Ok (b, s', x', ds') ->
  proposal full nbrs nh move (ratio lt dbl) s ds b s' ds' /\ hc_ok s' (fst x') /\ snd x' = Datatypes.S (snd x).
Proof.
  intros HO H. destruct HO as (HS & HE & HI). unfold ls_turn in H. apply rbind_ok in H as ([[s1 x1] ds1] & He & H). apply rbind_ok in H as ([[b1 x2] ds2] & Ha & H). apply rbind_ok in H as ([[s2 x3] ds3] & Hm & H). apply rbind_ok in H as ([x4 ds4] & Hu & H). injection H as <- <- <- <-.
  cbn [x_explore mh_search] in He. apply rbind_ok in He as ([y e1] & Hn & He). injection He as <- <- <-. cbn [x_update mh_search] in Hu. injection Hu as <- <-.
  destruct (has (geno s)) eqn:Hh.
  - destruct (neighbor_drawn G F S I Sp nbrs has nh Inv Prog xfuel cost full neval move NH MV s (fst x) ds y e1 ltac:(repeat split; auto) Hh Hn) as (p & Hp & Gp & Iy & Hi).
    cbn [x_accept mh_search] in Ha. unfold mh_accept in Ha. rewrite Hh, Hp in Ha. unfold fitness in Ha. rewrite HE in Ha. unfold get in Ha. cbn [rbind] in Ha.
    apply rbind_ok in Ha as ([bb e2] & Hb & Ha). injection Ha as <- <- <-.
    destruct (good_move G F I Sp nbrs full move s p Gp) as (g' & (j & _ & _) & Hg' & Hfp & Hmv). destruct Gp as (Gi & g2 & Gm & _ & Gf).
    assert (g2 = g'). { unfold move_to in Hmv. rewrite Gm in Hmv. cbn in Hmv. injection Hmv as -> _. auto. } subst g2.
    assert (R : ratio lt dbl (full (geno s)) (full g') e1 bb e2).
    { unfold ratio. rewrite <- Gf. destruct (lt (full (geno s)) (snd p)); [injection Hb as <- <-; auto|]. assert (P1 := POS _ HS). assert (P2 := POS _ Hg'). rewrite <- Gf in P2.
      destruct (Qeq_bool (dbl (full (geno s))) 0) eqn:Ez; [apply Qeq_bool_iff in Ez; lra|]. apply rbind_ok in Hb as ([u e3] & Hu1 & Hb). injection Hb as <- <-.
      unfold uniform01 in Hu1. destruct e1 as [|d e1']; [discriminate|]. injection Hu1 as <- <-. exists d. split; auto. rewrite below_lt. fold (u01 d).
      destruct (below (dbl (snd p)) (dbl (full (geno s)))) eqn:B.
      - apply below_lt in B. rewrite Q.min_r, Q.max_l by lra. reflexivity.
      - assert (B' : ~ (dbl (snd p) < dbl (full (geno s)))%Q) by (rewrite <- below_lt; congruence). apply Qnot_lt_le in B'. rewrite Q.min_l, Q.max_r by lra. reflexivity. }
    assert (Es : s2 = (if bb then Sol g' (Some (full g')) else s) /\ x3 = (Hc _ _ _ (h_nh y) (Some p) bb, snd x) /\ ds3 = e2).
    { destruct bb; [|injection Hm as <- <- <-; auto]. cbn [x_move mh_search] in Hm. unfold hc_move in Hm. cbn [fst LsModel.h_sel] in Hm. unfold get in Hm. cbn [rbind] in Hm. rewrite Hmv in Hm. cbn in Hm. injection Hm as <- <- <-. auto. }
    destruct Es as (-> & -> & ->). split; [|split].
    + right. exists (h_nh (fst x)), (fst p), (h_nh y), e1, g'. repeat split; auto.
    + cbn. destruct bb; repeat split; auto.
    + reflexivity.
  - unfold random_neighbor in Hn. rewrite Hh in Hn. injection Hn as <- <-. cbn [x_accept mh_search] in Ha. unfold mh_accept in Ha. rewrite Hh in Ha. injection Ha as <- <- <-. cbn in Hm. injection Hm as <- <- <-. split; [|split].
    + left. repeat split; auto. apply (has_false G F S I Sp nbrs has nh Inv Prog xfuel cost NH s HS Hh).
    + cbn. repeat split; auto.
    + reflexivity.
Qed.
Definition mh_R (h : list bool) (s : sol) (ds : list nat) (b : bool) (s' : sol) (ds' : list nat) : Prop := proposal full nbrs nh move (ratio lt dbl) s ds b s' ds'.
Definition mh_P (nb : nat) (s0 : sol) (ds0 : list nat) (tr : list sol) (s : sol) (x : hc F S I * nat) (ds : list nat) : Prop :=
  hc_ok s (fst x) /\ Forall (evaluated full) tr /\ snd x = length tr /\ length tr <= Nat.max 1 nb /\ exists h l, traced mh_R s0 ds0 h (s0 :: tr) ds /\ s0 :: tr = l ++ [s] /\ length h = length tr.
Lemma mh_run nb fuel s x cs ds r : Sp (geno s) -> not_stale full s -> Inv (h_nh (fst x)) -> local_search full (metro nb) c fuel s x cs ds = Ok r ->
  1 <= turns r <= Nat.max 1 nb /\ (r_by_itself r = true -> turns r = Nat.max 1 nb) /\ (exists h, traced mh_R (started full s) ds h (r_visited r) (r_draws r)) /\
  Forall (evaluated full) (r_visited r) /\ r_final r = last (r_visited r) s.
Proof.
  intros HS HN HI H. destruct (started_ok G F Sp full s HS HN) as [HS1 HE1]. unfold local_search in H. fold (started full s) in H. unfold ls_run in H. apply rbind_ok in H as ([x1 ds1] & Hi & H). apply rbind_ok in H as (r1 & Hr & H). injection H as <-.
  cbn [x_init mh_search] in Hi. injection Hi as <- <-.
  destruct (loop_draws _ _ _ (metro nb) c (mh_P nb (started full s) ds)) with (fuel := fuel) (tr := @nil sol) (s := started full s) (x := (Hc F S I (h_nh (fst x)) (h_sel F S I (fst x)) true, 0)) (cs := c_init c (started full s) cs) (ds := ds) (r := r1) as (s' & A & Al & An & Af & Ai).
  - intros tr sa xa da b sb xb db (P1 & P2 & P0 & P7 & h & l & P3 & P4 & P5) Hc Ht. destruct (mh_turn_spec nb sa xa da b sb xb db P1 Ht) as (T1 & T2 & T3).
    split; [auto|]. split; [apply Forall_app; split; auto; constructor; auto; apply T2|]. rewrite app_length. cbn [length]. split; [lia|]. split.
    { destruct Hc as [->|Hc]; [cbn [length]; lia|]. cbn [x_continue mh_search] in Hc. apply Nat.ltb_lt in Hc. lia. }
    exists (h ++ [b]), (l ++ [sa]). rewrite app_comm_cons, P4. split; [|split; [auto|]].
    + rewrite <- app_assoc. apply traced_step with (ds := da); [rewrite <- P4; auto|]. exact T1.
    + rewrite !app_length. cbn. lia.
  - split; [repeat split; auto|]. split; [constructor|]. split; [auto|]. split; [cbn [length]; lia|]. exists [], []. split; [apply traced_nil|]. split; auto.
  - auto.
  - exact Hr.
  - destruct A as (P1 & P2 & P0 & P7 & h & l & P3 & P4 & P5). cbn [app] in *. unfold turns. cbn [r_visited r_draws r_final r_by_itself length Nat.sub]. rewrite ?Nat.sub_0_r. assert (Hl : 1 <= length (r_visited r1)) by (destruct (r_visited r1); [congruence|cbn; lia]). split; [lia|]. split.
    { intros Hb. apply Ai in Hb. cbn [x_continue mh_search] in Hb. apply Nat.ltb_ge in Hb. lia. }
    split; [eauto|]. split; [constructor; auto|]. rewrite Af. cbn [x_terminate mh_search]. rewrite <- Al. destruct (r_visited r1) as [|v l0]; [congruence|]. cbn [last]. clear. revert v. induction l0 as [|w l0 IH]; intros v; auto. cbn. apply (IH w).
Qed.
End Mh.

(** ** cooling schedules *)
Lemma qpow_S a n : (qpow a (S n) == qpow a n * a)%Q.
Proof. reflexivity. Qed.
Lemma simple_after initT alpha span finalT k0 h :
  (fst (after (simple_cooling initT alpha span finalT) k0 h) == initT * qpow alpha (length h / (span + 1)))%Q /\ snd (after (simple_cooling initT alpha span finalT) k0 h) = length h mod (span + 1).
Proof.
  induction h as [|b h [IH1 IH2]] using rev_ind.
  - cbn [after fold_left simple_cooling k_init fst snd length]. rewrite Nat.div_0_l, Nat.mod_0_l by lia. split; auto. cbn. ring.
  - rewrite after_snoc. destruct (after (simple_cooling initT alpha span finalT) k0 h) as [t st]. cbn [fst snd] in *. subst st. cbn [simple_cooling k_update]. rewrite app_length. cbn [length].
    assert (D := Nat.div_mod (length h) (span + 1) ltac:(lia)). assert (M := Nat.mod_upper_bound (length h) (span + 1) ltac:(lia)). set (q := length h / (span + 1)) in *. set (m := length h mod (span + 1)) in *.
    destruct (Nat.leb_spec span m) as [E|E]; cbn [fst snd].
    + replace ((length h + 1) / (span + 1)) with (S q) by (apply (Nat.div_unique _ _ _ 0); lia). replace ((length h + 1) mod (span + 1)) with 0 by (apply (Nat.mod_unique _ _ (S q)); lia). split; auto. rewrite IH1, qpow_S. ring.
    + replace ((length h + 1) / (span + 1)) with q by (apply (Nat.div_unique _ _ _ (S m)); lia). replace ((length h + 1) mod (span + 1)) with (S m) by (apply (Nat.mod_unique _ _ q); lia). auto.
Qed.
Lemma simple_goes_on initT alpha span finalT k0 h :
  goes_on (simple_cooling initT alpha span finalT) k0 h = true <-> (finalT < initT * qpow alpha (length h / (span + 1)))%Q.
Proof.
  unfold goes_on. destruct (simple_after initT alpha span finalT k0 h) as [A _]. cbn [simple_cooling k_go]. rewrite below_lt. fold (simple_cooling initT alpha span finalT). rewrite A. reflexivity.
Qed.
Lemma qpow_nonneg a n : (0 <= a)%Q -> (0 <= qpow a n)%Q.
Proof. intros H. induction n; [cbn; lra|]. rewrite qpow_S. apply Qmult_le_0_compat; auto. Qed.
Lemma bernoulli a n : (0 <= a)%Q -> (a < 1)%Q -> (qpow a n * (1 + inject_Z (Z.of_nat n) * (1 - a)) <= 1)%Q.
Proof.
  intros H0 H1. induction n as [|n IH]. { change (qpow a 0) with 1%Q. change (inject_Z (Z.of_nat 0)) with 0%Q. lra. } rewrite qpow_S. assert (P := qpow_nonneg a n H0). rewrite Nat2Z.inj_succ. unfold Z.succ. rewrite inject_Z_plus. change (inject_Z 1) with 1%Q.
  set (p := qpow a n) in *. set (k := inject_Z (Z.of_nat n)) in *. assert (K : (0 <= k)%Q) by (unfold k; change 0%Q with (inject_Z 0); rewrite <- Zle_Qle; lia).
  apply Qle_trans with (p * (1 + k * (1 - a)))%Q; auto. rewrite <- Qmult_assoc. rewrite (Qmult_comm p), (Qmult_comm p). apply Qmult_le_compat_r; auto.
  assert (E : (1 + k * (1 - a) - a * (1 + (k + 1) * (1 - a)) == (1 - a) * (1 - a) * (k + 1))%Q) by ring.
  assert (0 <= (1 - a) * (1 - a) * (k + 1))%Q by (apply Qmult_le_0_compat; [apply Qmult_le_0_compat; lra|lra]). lra.
Qed.
Lemma cools initT alpha finalT : (0 <= alpha)%Q -> (alpha < 1)%Q -> (0 < finalT)%Q -> exists M, forall m, M <= m -> (initT * qpow alpha m <= finalT)%Q.
Proof.
  intros H0 H1 HF. destruct (Qlt_le_dec 0 initT) as [HI|HI].
  2: { exists 0. intros m _. assert (P := qpow_nonneg alpha m H0). apply Qle_trans with 0%Q; [|lra]. rewrite Qmult_comm. setoid_replace 0%Q with (qpow alpha m * 0)%Q by ring. rewrite !(Qmult_comm (qpow alpha m)). apply Qmult_le_compat_r; auto. }
  set (q := (initT / finalT / (1 - alpha))%Q). exists (Z.to_nat (Qceiling q)). intros m Hm.
  assert (Q0 : (0 < q)%Q). { unfold q. apply Qlt_shift_div_l; [lra|]. rewrite Qmult_0_l. apply Qlt_shift_div_l; lra. }
  assert (C := Qle_ceiling q). assert (Cz : (0 < Qceiling q)%Z). { rewrite Zlt_Qlt. change (inject_Z 0) with 0%Q. lra. }
  assert (K : (q <= inject_Z (Z.of_nat m))%Q). { apply Qle_trans with (inject_Z (Qceiling q)); auto. rewrite <- Zle_Qle. lia. }
  assert (B := bernoulli alpha m H0 H1). assert (P := qpow_nonneg alpha m H0). set (p := qpow alpha m) in *. set (k := inject_Z (Z.of_nat m)) in *.
  assert (E : (q * (1 - alpha) * finalT == initT)%Q). { unfold q. field. split; lra. }
  assert (L : (initT <= k * (1 - alpha) * finalT)%Q). { rewrite <- E. apply Qmult_le_compat_r; [|lra]. apply Qmult_le_compat_r; lra. }
  apply Qle_trans with (k * (1 - alpha) * finalT * p)%Q; [apply Qmult_le_compat_r; auto|].
  assert (B2 : (p * (k * (1 - alpha)) <= 1)%Q). { assert (p * (1 + k * (1 - alpha)) == p + p * (k * (1 - alpha)))%Q by ring. lra. }
  setoid_replace (k * (1 - alpha) * finalT * p)%Q with (p * (k * (1 - alpha)) * finalT)%Q by ring. setoid_replace finalT with (1 * finalT)%Q at 2 by ring. apply Qmult_le_compat_r; lra.
Qed.
Lemma spans_snoc tm mm b : forall h cur, spans tm mm cur (h ++ [b]) =
  let (l, e) := spans tm mm cur h in
  if (tm <=? length (e ++ [b])) || (mm <=? accepted (e ++ [b])) then (l ++ [e ++ [b]], []) else (l, e ++ [b]).
Proof.
  induction h as [|a h IH]; intros cur.
  - cbn [app spans]. destruct ((tm <=? length (cur ++ [b])) || (mm <=? accepted (cur ++ [b]))); reflexivity.
  - cbn [app spans]. destruct ((tm <=? length (cur ++ [a])) || (mm <=? accepted (cur ++ [a]))); [|apply IH]. rewrite IH. destruct (spans tm mm [] h) as [l e]. destruct ((tm <=? length (e ++ [b])) || (mm <=? accepted (e ++ [b]))); reflexivity.
Qed.
Lemma quiet_snoc x : forall l n, quiet_end (l ++ [x]) n = if accepted x =? 0 then S (quiet_end l n) else 0.
Proof. induction l; intros n; cbn; auto. Qed.
Lemma accepted_snoc h b : accepted (h ++ [b]) = accepted h + if b then 1 else 0.
Proof. unfold accepted. rewrite filter_app, app_length. destruct b; reflexivity. Qed.
Lemma dyn_after initT alpha tm mm nbm k0 h :
  let a := after (dyn_cooling initT alpha tm mm nbm) k0 h in let (l, e) := spans tm mm [] h in
  (fst a == initT * qpow alpha (length l))%Q /\ snd a = (length e, accepted e, quiet_end l 0).
Proof.
  cbv zeta. induction h as [|b h IH] using rev_ind.
  - cbn. split; auto. ring.
  - rewrite after_snoc, spans_snoc. destruct (after (dyn_cooling initT alpha tm mm nbm) k0 h) as [t st]. destruct (spans tm mm [] h) as [l e]. cbn [fst snd] in *. destruct IH as [I1 ->]. cbn [dyn_cooling k_update].
    rewrite app_length, accepted_snoc. cbn [length]. replace (length e + 1) with (S (length e)) by lia. replace (accepted e + (if b then 1 else 0)) with (if b then S (accepted e) else accepted e) by (destruct b; lia).
    destruct ((tm <=? S (length e)) || (mm <=? (if b then S (accepted e) else accepted e))); cbn [fst snd].
    + rewrite app_length. cbn [length]. replace (length l + 1) with (S (length l)) by lia. split; [rewrite I1, qpow_S; ring|]. rewrite quiet_snoc, accepted_snoc. replace (accepted e + (if b then 1 else 0)) with (if b then S (accepted e) else accepted e) by (destruct b; lia). reflexivity.
    + rewrite app_length, accepted_snoc. cbn [length]. split; auto. f_equal. f_equal; [lia|destruct b; lia].
Qed.
Lemma spans_gen tm mm : 1 <= tm -> 1 <= mm -> forall h cur l e, length cur < tm -> accepted cur < mm -> spans tm mm cur h = (l, e) -> cur ++ h = concat l ++ e /\
  (forall p, In p l -> (length p = tm \/ accepted p = mm) /\ length p <= tm /\ accepted p <= mm /\ forall n, n < length p -> n < tm /\ accepted (firstn n p) < mm) /\
  length e < tm /\ accepted e < mm.
Proof.
  intros T1 M1. assert (Mono : forall n p, accepted (firstn n p) <= accepted p).
  { intros n p. rewrite <- (firstn_skipn n p) at 2. unfold accepted. rewrite filter_app, app_length. lia. }
  induction h as [|b h IH]; intros cur l e Hc Ha H; cbn [spans] in H.
  - injection H as <- <-. cbn. rewrite app_nil_r. repeat split; auto; contradiction.
  - destruct ((tm <=? length (cur ++ [b])) || (mm <=? accepted (cur ++ [b]))) eqn:E.
    + destruct (spans tm mm [] h) as [l1 e1] eqn:E1. injection H as <- <-. destruct (IH [] l1 e1) as (A1 & A2 & A3); auto. cbn [app] in A1. cbn [concat]. split; [rewrite <- app_assoc, <- A1, <- app_assoc; reflexivity|]. split; auto.
      assert (Lc : length (cur ++ [b]) = S (length cur)) by (rewrite app_length; cbn; lia). assert (Ac : accepted (cur ++ [b]) <= S (accepted cur)) by (rewrite accepted_snoc; destruct b; lia).
      intros p [<-|Hp]; [|apply A2; auto]. split; [|split; [lia|split; [lia|]]].
      * apply orb_prop in E as [E|E]; apply Nat.leb_le in E; [left|right]; lia.
      * intros n Hn. split; [lia|]. rewrite firstn_app. replace (n - length cur) with 0 by lia. cbn [firstn]. rewrite app_nil_r. specialize (Mono n cur). lia.
    + apply orb_false_iff in E as [E2 E3]. apply Nat.leb_gt in E2, E3. destruct (IH (cur ++ [b]) l e E2 E3 H) as (A1 & A2 & A3). split; [rewrite <- A1, <- app_assoc; reflexivity|]. split; auto.
Qed.
Lemma spans_spec tm mm h l e : 1 <= tm -> 1 <= mm -> spans tm mm [] h = (l, e) -> h = concat l ++ e /\
  (forall p, In p l -> (length p = tm \/ accepted p = mm) /\ length p <= tm /\ accepted p <= mm /\ forall n, n < length p -> n < tm /\ accepted (firstn n p) < mm) /\
  length e < tm /\ accepted e < mm.
Proof. intros T1 M1 H. apply (spans_gen tm mm T1 M1 h [] l e); auto. Qed.
Lemma quiet_end_spec l n : quiet_end l 0 = n <-> exists a b, l = a ++ b /\ length b = n /\ (forall p, In p b -> accepted p = 0) /\ (a = [] \/ exists a' p, a = a' ++ [p] /\ accepted p <> 0).
Proof.
  assert (D : exists a b, l = a ++ b /\ length b = quiet_end l 0 /\ (forall p, In p b -> accepted p = 0) /\ (a = [] \/ exists a' p, a = a' ++ [p] /\ accepted p <> 0)).
  { induction l as [|p l IH] using rev_ind; [exists [], []; cbn; repeat split; auto; contradiction|]. rewrite quiet_snoc. destruct (Nat.eqb_spec (accepted p) 0) as [E|E].
    - destruct IH as (a & b & -> & A2 & A3 & A4). exists a, (b ++ [p]). rewrite app_assoc, app_length. cbn. repeat split; auto; [lia|]. intros q Hq. apply in_app_or in Hq as [Hq|[<-|[]]]; auto.
    - exists (l ++ [p]), []. rewrite app_nil_r. repeat split; auto; [contradiction|]. right. eauto. }
  split; [intros <-; auto|]. intros (a & b & E & <- & H1 & H2). clear D. subst l.
  assert (Q : forall b a0, (forall p, In p b -> accepted p = 0) -> quiet_end (a0 ++ b) 0 = quiet_end a0 0 + length b).
  { clear. induction b as [|p b IH] using rev_ind; intros a0 H; [rewrite app_nil_r; cbn; lia|]. rewrite app_assoc, quiet_snoc, app_length. rewrite (H p) by (apply in_or_app; right; left; auto). cbn [Nat.eqb length]. rewrite IH; [lia|]. intros q Hq. apply H. apply in_or_app; auto. }
  rewrite Q by auto. destruct H2 as [->|(a' & p & -> & Hp)]; [reflexivity|]. rewrite quiet_snoc. destruct (Nat.eqb_spec (accepted p) 0); [congruence|reflexivity].
Qed.
