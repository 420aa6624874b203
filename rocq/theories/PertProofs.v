From Coq Require Import List Arith Bool Lia.
From Verif Require Import Outcome Lib NeighModel LsModel LsSpec LsInst MetaModel MetaSpec PertModel PertSpec.
From Coq Require Import List.
Import ListNotations.
Open Scope nat_scope.

Section P.
Context {G F : Type}.
Notation sol := (sol G F).
Variable full : G -> F.

Lemma modif_ok {I} (move back : I -> G -> res G) (s : sol) i f g : fit s = Some f -> move i (geno s) = Ok g -> back i g = Ok (geno s) ->
  eval_by_modif G F full move back s i = Ok (s, full g).
Proof.
  intros Hf Hm Hb. unfold eval_by_modif, fitness. rewrite Hf. cbn [rbind]. rewrite Hm. cbn. rewrite Hb. cbn. destruct s as [gs fs]. cbn in *. subst. auto.
Qed.

Lemma repeat_op_spec (op : sol -> list nat -> res (sol * bool * list nat)) : forall n s r ds s' r' ds', repeat_op G F op n s r ds = Ok (s', r', ds') ->
  exists bs, length bs = n /\ applications op s ds bs s' ds' /\ r' = existsb id bs || r.
Proof.
  induction n as [|n IH]; intros s r ds s' r' ds' H; cbn [repeat_op] in H.
  - injection H as <- <- <-. exists []. repeat split; auto. constructor.
  - apply rbind_ok in H as ([[s1 b] ds1] & E & H). apply IH in H as (bs & L & A & R). exists (b :: bs). split; [cbn; lia|]. split; [econstructor; eauto|].
    rewrite R. cbn [existsb]. unfold id. destruct b, (existsb (fun x : bool => x) bs), r; auto.
Qed.
Lemma repeat_op_total (op : sol -> list nat -> res (sol * bool * list nat)) s ds bs s' ds' : applications op s ds bs s' ds' -> forall r,
  repeat_op G F op (length bs) s r ds = Ok (s', existsb id bs || r, ds').
Proof.
  induction 1 as [|s ds s1 b ds1 bs s2 ds2 E A IH]; intros r; cbn [repeat_op length]; auto.
  rewrite E. cbn [rbind]. rewrite IH. cbn [existsb]. unfold id. destruct b, (existsb (fun x : bool => x) bs), r; auto.
Qed.

Definition event (h : bool * bool) : bool := fst h || snd h.
Definition accepted_of (hist : list (bool * bool)) : nat := length (filter fst hist).
Lemma restart_history init thr crit p0 s0 tr p :
  remembers (count_init G F) (restart_apply G F full init thr) (count_add G F) (count_update G F) crit p0 s0 tr p ->
  exists hist, decisions crit s0 tr (map fst hist) /\
    p = Some (Counters (accepted_of hist) (length hist) (turns_since event (rev hist))) /\
    forall k a r, nth_error hist k = Some (a, r) -> r = (0 <? k) && (thr <=? turns_since event (rev (firstn k hist))).
Proof.
  induction 1 as [d p d' H|tr p from p1 made b p2 p3 d1 d1' d2 d2' d3 d3' H IH Ha Hc Hadd Hu].
  - injection H as <- <-. exists []. repeat split; [constructor|]. intros [|k] a r E; discriminate.
  - destruct IH as (hist & D & -> & R).
    assert (L : length tr = length hist).
    { clear -D. remember (map fst hist) as l eqn:E. rewrite <- (map_length fst hist), <- E. clear E. induction D; auto. rewrite !app_length. cbn. lia. }
    set (t := turns_since event (rev hist)) in *.
    set (r := (0 <? length hist) && (thr <=? t)).
    assert (E1 : p1 = Some (Counters (accepted_of hist) (length hist) (if r then 0 else t))).
    { rewrite L in Ha. unfold r. destruct hist as [|h hist]; cbn [length Nat.eqb Nat.ltb Nat.leb andb] in *; auto.
      unfold restart_apply in Ha. cbn [of_opt rbind counter] in Ha. destruct (thr <=? t).
      - apply rbind_ok in Ha as ([s1 ds1] & _ & Ha). injection Ha as _ <- _. auto.
      - injection Ha as _ <- _. auto. }
    exists (hist ++ [(b, r)]). rewrite map_app. cbn [map fst]. split; [econstructor; eauto|]. split.
    + rewrite rev_app_distr. cbn [rev app turns_since]. unfold accepted_of. rewrite filter_app, !app_length. cbn [filter fst length].
      unfold event at 1. cbn [fst snd]. fold t. subst p1. destruct b.
      * injection Hadd as <- _. injection Hu as <- _. cbn. repeat f_equal; try (unfold accepted_of; lia).
      * subst p2. injection Hu as <- _. cbn. unfold accepted_of. destruct r; cbn; repeat f_equal; lia.
    + intros k a r' E. destruct (lt_dec k (length hist)) as [Hk|Hk].
      * rewrite nth_error_app1 in E by auto. rewrite (R _ _ _ E). rewrite firstn_app. replace (k - length hist) with 0 by lia. cbn [firstn]. rewrite app_nil_r. auto.
      * rewrite nth_error_app2 in E by lia. destruct (k - length hist) as [|m] eqn:Em; [|destruct m; discriminate]. injection E as <- <-.
        replace k with (length hist) by lia. rewrite firstn_app, Nat.sub_diag, firstn_all. cbn [firstn]. rewrite app_nil_r. auto.
Qed.

Section Nbh.
Variables (n : nat) (neval : sol -> nat -> res F) (move : nat -> G -> res G).
Hypothesis N : 0 < n.
Lemma mod_step k : (if k mod n <? n - 1 then S (k mod n) else 0) = S k mod n.
Proof.
  assert (L := Nat.mod_upper_bound k n ltac:(lia)). destruct (Nat.ltb_spec (k mod n) (n - 1)) as [H|H].
  - apply Nat.mod_unique with (k / n); [lia|]. pose proof (Nat.div_mod k n ltac:(lia)). lia.
  - apply Nat.mod_unique with (S (k / n)); [lia|]. pose proof (Nat.div_mod k n ltac:(lia)). nia.
Qed.
Lemma nbh_history crit p0 s0 tr p :
  remembers (nbh_init G F nat nat (fun _ => true) (fun _ => order_nh n)) (nbh_apply G F nat nat (fun _ => true) neval move)
    (nbh_init G F nat nat (fun _ => true) (fun _ => order_nh n)) (nbh_update G F nat nat (fun _ => true) (fun _ => order_nh n)) crit p0 s0 tr p ->
  exists bs, decisions crit s0 tr bs /\ let k := turns_since id (rev bs) mod n in p = (k, Some k).
Proof.
  induction 1 as [d p d' H|tr p from p1 made b p2 p3 d1 d1' d2 d2' d3 d3' H IH Ha Hc Hadd Hu].
  - injection H as <- <-. exists []. split; [constructor|]. cbn [rev turns_since]. rewrite Nat.mod_0_l by lia. auto.
  - destruct IH as (bs & D & E). cbv zeta in E.
    assert (E1 : p1 = p).
    { destruct (length tr =? 0); auto. unfold nbh_apply in Ha. subst p. cbn [snd of_opt rbind] in Ha. apply rbind_ok in Ha as (f & _ & Ha). apply rbind_ok in Ha as (g & _ & Ha). injection Ha as _ <- _. auto. }
    exists (bs ++ [b]). split; [econstructor; eauto|]. cbv zeta. rewrite rev_app_distr. cbn [rev app turns_since]. unfold id at 1 3. subst p1.
    assert (E2 : p2 = if b then (0, Some 0) else p) by (destruct b; [injection Hadd as <- _; auto|auto]).
    unfold nbh_update in Hu. cbn [order_nh i_cont i_next fst] in Hu. replace (n =? 0) with false in Hu by (symmetry; apply Nat.eqb_neq; lia).
    assert (E3 : p3 = let k := S (if b then 0 else turns_since id (rev bs)) mod n in (k, Some k)).
    { cbv zeta. set (j := if b then 0 else turns_since id (rev bs)).
      assert (E2' : p2 = (j mod n, Some (j mod n))) by (rewrite E2; unfold j; destruct b; [rewrite Nat.mod_0_l by lia; auto|auto]).
      rewrite <- !mod_step. rewrite E2' in Hu. cbn [fst] in Hu. destruct (j mod n <? n - 1); injection Hu as <- _; auto. }
    rewrite E3. cbv zeta. destruct b; auto.
Qed.
End Nbh.
End P.

(** the pure random search *)
Section R.
Context {G F C : Type}.
Notation sol := (sol G F).
Variable full : G -> F.
Variable init : sol -> list nat -> res (sol * list nat).
Variable c : continuator sol C.
Lemma rs_loop nb : forall fuel s x cs ds r, ls_loop _ _ _ (random_search_explorer G F full init nb) c fuel s x cs ds = Ok r ->
  draws_from init (full_eval G F full) s ds (r_visited r) (r_draws r) /\ r_final r = last (r_visited r) s /\ 1 <= length (r_visited r) /\ length (r_visited r) <= Nat.max 1 (nb - x) /\
  (r_by_itself r = true -> length (r_visited r) = Nat.max 1 (nb - x)).
Proof.
  induction fuel as [|fuel IH]; intros s x cs ds r H; cbn [ls_loop] in H; [discriminate|].
  apply rbind_ok in H as ([[[b s'] x'] ds'] & Ht & H). unfold ls_turn, random_search_explorer in Ht. cbn in Ht.
  apply rbind_ok in Ht as ([[s1 x1] ds1] & He & Ht). apply rbind_ok in He as ([s2 ds2] & Hi & He). injection He as <- <- <-. cbn in Ht. injection Ht as <- <- <- <-.
  destruct (c_step c (full_eval G F full s2) cs) as [go cs']. cbn [x_continue random_search_explorer] in H.
  destruct (go && (S x <? nb)) eqn:Eg.
  - apply rbind_ok in H as (r1 & Hr & H). injection H as <-. apply andb_prop in Eg as [-> Eg]. apply Nat.ltb_lt in Eg.
    destruct (IH _ _ _ _ _ Hr) as (A & B & L1 & L2 & L3). cbn [r_visited r_final r_draws r_by_itself]. split; [econstructor; eauto|]. split.
    { rewrite B. destruct (r_visited r1); [cbn in L1; lia|]. cbn [last]. clear. revert s0. induction l; intros; cbn; auto. }
    cbn [length]. split; [lia|]. split; [lia|]. intros Hb. specialize (L3 Hb). lia.
  - injection H as <-. cbn [r_visited r_final r_draws r_by_itself length last x_terminate random_search_explorer]. split; [econstructor; eauto; constructor|]. split; auto. split; auto. split; [lia|]. intros ->. cbn [andb] in Eg. apply Nat.ltb_ge in Eg. lia.
Qed.
Lemma rs_run nb fuel s cs ds r : random_search G F full init nb c fuel s cs ds = Ok r ->
  exists l, r_visited r = started full s :: l /\ draws_from init (started full) (started full s) ds l (r_draws r) /\ r_final r = last l s /\ 1 <= length l /\
    length (r_visited r) <= Nat.max 2 nb /\ (r_by_itself r = true -> length (r_visited r) = Nat.max 2 nb).
Proof.
  intros H. unfold random_search, local_search, ls_run in H. cbn [x_init random_search_explorer rbind] in H. apply rbind_ok in H as (r1 & H & E). injection E as <-.
  apply rs_loop in H as (A & B & L1 & L2 & L3). exists (r_visited r1). cbn [r_visited r_draws r_final r_by_itself]. split; auto. split; [exact A|]. split.
  { rewrite B. destruct (r_visited r1) as [|y l]; [cbn in L1; lia|]. clear. cbn [last]. destruct l; auto. revert s0. induction l as [|z l IH]; intros; cbn in *; auto. }
  split; auto. cbn [length]. destruct (Nat.ltb_spec 0 nb); split; try intros Hb; try specialize (L3 Hb); lia.
Qed.
End R.
