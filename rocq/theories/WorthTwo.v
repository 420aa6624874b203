(** Non-dominated sorting with two objectives (C122). *)
From Coq Require Import List Arith Lia Bool ZArith QArith Qabs Lqa Permutation Sorted.
From Verif Require Import Outcome Lib OrderSpec OrderLemmas BoundsModel BoundsProofs ParetoSpec RankModel RankSpec RankProofs RankTwo DmlsProofs DivNear IslRun ParetoSpec RankModel RankSpec RankProofs WorthModel WorthSpec WorthNd.
From Coq Require Import List.
Import ListNotations.
Close Scope Q_scope.

(** ** placing, on two keys to be minimised *)
Lemma nth_error_rep {X} (x : X) : forall n k, k < n -> nth_error (repeat x n) k = Some x.
Proof. induction n as [|n IH]; intros [|k] H; cbn; try lia; auto. apply IH. lia. Qed.
Section Place.
Variables (max0 max1 : bool) (same : list Q -> list Q -> bool) (declone : bool) (vs : list (list Q)).
Notation size := (length vs).
Notation top := (nd_top vs).
Definition kx (i : nat) : Q := if max0 then (- obj vs i 0)%Q else obj vs i 0.
Definition ky (i : nat) : Q := if max1 then (top - obj vs i 1)%Q else obj vs i 1.
Definition lexlt i j : Prop := (kx i < kx j \/ (kx i == kx j /\ ky i < ky j))%Q.
Definition same2 i j : Prop := (kx i == kx j /\ ky i == ky j)%Q.
(** [i] is dominated by [j] *)
Definition dom2 i j : Prop := (kx j <= kx i)%Q /\ (ky j <= ky i)%Q /\ ~ same2 i j.
Lemma not_lex v w : ~ lexlt w v -> lexlt v w \/ same2 v w.
Proof.
  unfold lexlt, same2. intros H. destruct (Q_dec (kx v) (kx w)) as [[L|L]|L]; [auto|exfalso; apply H; auto|].
  destruct (Q_dec (ky v) (ky w)) as [[L2|L2]|L2]; [auto|exfalso; apply H; right; split; [lra|auto]|auto].
Qed.
Lemma lex_le_dom v w : lexlt w v -> (ky w <= ky v)%Q -> dom2 v w.
Proof. unfold lexlt, dom2, same2. intros [H|[H1 H2]] H3; repeat split; try lra; intros [C1 C2]; lra. Qed.
Lemma lex_not_dom v w : lexlt v w -> ~ dom2 v w.
Proof. unfold lexlt, dom2, same2. intros [H|[H1 H2]] (C1 & C2 & _); lra. Qed.
Lemma same_not_dom v w : same2 v w -> ~ dom2 v w.
Proof. unfold dom2. tauto. Qed.
Lemma same2_sym v w : same2 v w -> same2 w v.
Proof. unfold same2. intros [H1 H2]. split; lra. Qed.
Lemma dom2_same_l v v' w : same2 v v' -> dom2 v w -> dom2 v' w.
Proof. unfold dom2, same2. intros [H1 H2] (C1 & C2 & C3). repeat split; try lra; intros [N1 N2]; apply C3; split; lra. Qed.
Lemma dom2_same_r v w w' : same2 w w' -> dom2 v w -> dom2 v w'.
Proof. unfold dom2, same2. intros [H1 H2] (C1 & C2 & C3). repeat split; try lra; intros [N1 N2]; apply C3; split; lra. Qed.
Lemma lex_same_trans u v w : (lexlt u v \/ same2 u v) -> lexlt v w -> lexlt u w.
Proof. unfold lexlt, same2. intros [[H|[H1 H2]]|[H1 H2]] [H'|[H1' H2']]; try (left; lra); right; split; lra. Qed.

(** members placed so far with their front (from 0) *)
Definition layered (l : list (nat * nat)) : Prop :=
  forall w g, In (w, g) l -> (0 < g -> exists w' g', In (w', g') l /\ S g' = g /\ dom2 w w') /\ (forall w' g', In (w', g') l -> dom2 w w' -> g' < g).
Definition state_ok (d : list Q) (last : nat) (prev : option nat) (prev_front : nat) (l : list (nat * nat)) : Prop :=
  length d = size /\ last <= length l /\ StronglySorted Qle (firstn last d) /\
  (forall w g, In (w, g) l -> exists x, g < last /\ nth_error d g = Some x /\ (x <= ky w)%Q) /\
  (forall k x, k < last -> nth_error d k = Some x -> exists w, In (w, k) l /\ (ky w == x)%Q) /\
  match prev with
  | None => l = []
  | Some v => In (v, prev_front) l /\ forall w g, In (w, g) l -> lexlt w v \/ same2 w v
  end /\ layered l.
(** the same members with the vector of fronts they are in: the second copy of a vector may be in the last one *)
Definition fronts_ok (fronts : list (list nat)) (p : list (nat * nat)) : Prop :=
  length fronts = size /\ forall k, k < size -> nth_error fronts k = Some (map fst (filter (fun e => snd e =? k) p)).
Definition placed (l p : list (nat * nat)) : Prop :=
  Forall2 (fun e e' => fst e = fst e' /\ (snd e' = snd e \/ (declone = true /\ snd e' = size - 1 /\ exists w, In (w, snd e) l /\ In (w, snd e) p /\ w <> fst e /\ same2 (fst e) w))) l p.

Definition firsts (p : list (nat * nat)) : Prop := declone = true -> forall i j k, In (i, k) p -> In (j, k) p -> S k < size -> i <> j -> ~ same2 i j.

Lemma sorted_set' d k last v : length d >= last -> StronglySorted Qle (firstn last d) -> k <= last -> k < length d ->
  (forall i x, i < k -> nth_error d i = Some x -> (x <= v)%Q) -> (forall i x, k <= i -> i < last -> nth_error d i = Some x -> (v < x)%Q) ->
  StronglySorted Qle (firstn (if k =? last then S last else last) (set d k v)).
Proof. apply sorted_set. Qed.

Hypothesis Hsame : forall i j, i < size -> j < size -> (same (nth i vs []) (nth j vs []) = true <-> same2 i j).

(** the front of the next member, with the state after it *)
Lemma new_ok d last prev pf l v : state_ok d last prev pf l -> length l < size -> (forall w g, In (w, g) l -> lexlt w v) ->
  exists k, upper_bound (firstn last d) (ky v) = Ok k /\ k < length d /\ k < size /\ upd d k (ky v) = Some (set d k (ky v)) /\
  state_ok (set d k (ky v)) (if k =? last then S last else last) (Some v) k (l ++ [(v, k)]).
Proof.
  intros (Ld & Ll & Sd & Hmem & Hmin & Hprev & Hlay) Hsz Hnew.
  assert (Lf : length (firstn last d) = last) by (rewrite firstn_length; lia).
  destruct (upper_bound_ok (firstn last d) (ky v) Sd) as (k & Eu & Hk & Below & Above). rewrite Lf in Hk. assert (Hkd : k < length d) by lia.
  assert (Below' : forall i x, i < k -> nth_error d i = Some x -> (x <= ky v)%Q).
  { intros i x Hi Hx. apply (Below i); auto. rewrite nth_firstn, (proj2 (Nat.ltb_lt i last)); auto. lia. }
  assert (Above' : forall i x, k <= i -> i < last -> nth_error d i = Some x -> (ky v < x)%Q).
  { intros i x Hi Hil Hx. apply (Above i); auto. rewrite nth_firstn, (proj2 (Nat.ltb_lt i last)); auto. }
  exists k. split; [exact Eu|]. split; [exact Hkd|]. split; [lia|]. split; [apply upd_set; exact Hkd|].
  set (last' := if k =? last then S last else last).
  assert (Ll' : last <= last') by (unfold last'; destruct (k =? last); lia).
  assert (Hkl : k < last') by (unfold last'; destruct (Nat.eqb_spec k last); lia).
  split; [rewrite set_length; auto|]. split; [rewrite app_length; cbn; unfold last'; destruct (k =? last); lia|].
  split; [apply sorted_set'; auto; lia|]. split; [|split; [|split]].
  - intros w g H. apply in_app_or in H as [H|[H|[]]].
    + destruct (Hmem w g H) as (x & X1 & X2 & X3). rewrite nth_error_set, (proj2 (Nat.ltb_lt k (length d))) by auto. rewrite andb_true_r.
      destruct (Nat.eqb_spec g k) as [->|].
      * exists (ky v). split; [lia|]. split; auto. specialize (Above' k x ltac:(lia) X1 X2). lra.
      * exists x. repeat split; auto. lia.
    + inversion H; subst w g. exists (ky v). split; auto. rewrite nth_error_set_eq by auto. split; auto. lra.
  - intros i x Hi Hx. rewrite nth_error_set, (proj2 (Nat.ltb_lt k (length d))) in Hx by auto. rewrite andb_true_r in Hx.
    destruct (Nat.eqb_spec i k) as [->|].
    + inversion Hx; subst x. exists v. split; [apply in_or_app; right; left; auto|lra].
    + destruct (Hmin i x) as (w & W1 & W2); auto. { unfold last' in Hi. destruct (Nat.eqb_spec k last); lia. } exists w. split; auto. apply in_or_app; auto.
  - split; [apply in_or_app; right; left; auto|]. intros w g H. apply in_app_or in H as [H|[H|[]]]; [left; eauto|].
    inversion H; subst. right. unfold same2. split; lra.
  - intros w g H. apply in_app_or in H as [H|[H|[]]].
    + destruct (Hlay w g H) as [A1 A2]. split.
      * intros Hg0. destruct (A1 Hg0) as (w' & g' & B1 & B2 & B3). exists w', g'. split; auto. apply in_or_app; auto.
      * intros w' g' H' Hd'. apply in_app_or in H' as [H'|[H'|[]]]; eauto. inversion H'; subst w' g'. exfalso. apply (lex_not_dom w v); eauto.
    + inversion H; subst w g. split.
      * intros Hk0. destruct (nth_error d (k - 1)) as [x|] eqn:Ex; [|apply nth_error_None in Ex; lia].
        destruct (Hmin (k - 1) x ltac:(lia) Ex) as (w & W1 & W2). exists w, (k - 1). split; [apply in_or_app; auto|]. split; [lia|].
        apply lex_le_dom; eauto. specialize (Below' (k - 1) x ltac:(lia) Ex). lra.
      * intros w' g' H' Hd'. apply in_app_or in H' as [H'|[H'|[]]].
        -- destruct (le_lt_dec k g') as [C|]; auto. exfalso. destruct (Hmem w' g' H') as (x & X1 & X2 & X3).
           specialize (Above' g' x C X1 X2). destruct Hd' as (_ & Hd' & _). lra.
        -- inversion H'; subst w' g'. exfalso. apply (same_not_dom v v); auto. unfold same2. split; lra.
Qed.
Lemma copy_ok d last p pf l v : state_ok d last (Some p) pf l -> same2 v p -> state_ok d last (Some v) pf (l ++ [(v, pf)]).
Proof.
  intros (Ld & Ll & Sd & Hmem & Hmin & [Hp Hord] & Hlay) Es.
  split; auto. split; [rewrite app_length; cbn; lia|]. split; auto. split; [|split; [|split]].
  - intros w0 g0 H. apply in_app_or in H as [H|[H|[]]]; eauto. inversion H; subst w0 g0. destruct (Hmem p pf Hp) as (x & X1 & X2 & X3).
    exists x. repeat split; auto. destruct Es. lra.
  - intros k x Hk Hx. destruct (Hmin k x Hk Hx) as (w0 & W1 & W2). exists w0. split; auto. apply in_or_app; auto.
  - split; [apply in_or_app; right; left; auto|]. intros w0 g0 H. apply in_app_or in H as [H|[H|[]]].
    + destruct (Hord w0 g0 H) as [[X|[X Y]]|[X Y]]; destruct Es as [E1 E2]; [left; left; lra|left; right; split; lra|right; split; lra].
    + inversion H; subst. right. unfold same2. split; lra.
  - intros w0 g0 H. apply in_app_or in H as [H|[H|[]]].
    + destruct (Hlay w0 g0 H) as [A1 A2]. split.
      * intros Hg0. destruct (A1 Hg0) as (w' & g' & B1 & B2 & B3). exists w', g'. split; auto. apply in_or_app; auto.
      * intros w' g' H' Hd'. apply in_app_or in H' as [H'|[H'|[]]]; eauto. inversion H'; subst w' g'. apply (A2 p pf); auto. eapply dom2_same_r; eauto.
    + inversion H; subst w0 g0. destruct (Hlay p pf Hp) as [A1 A2]. split.
      * intros Hg0. destruct (A1 Hg0) as (w' & g' & B1 & B2 & B3). exists w', g'. split; [apply in_or_app; auto|]. split; auto. eapply dom2_same_l; [|exact B3]. apply same2_sym; auto.
      * intros w' g' H' Hd'. apply in_app_or in H' as [H'|[H'|[]]].
        -- apply (A2 w' g'); auto. eapply dom2_same_l; eauto.
        -- inversion H'; subst w' g'. exfalso. apply (same_not_dom v v); auto. unfold same2. split; lra.
Qed.
Lemma push_ok fronts p k i : fronts_ok fronts p -> k < size -> exists fronts', push fronts k i = Ok fronts' /\ fronts_ok fronts' (p ++ [(i, k)]).
Proof.
  intros [L H] Hk. unfold push. rewrite (H k Hk). cbn [of_opt rbind]. rewrite upd_set by lia. cbn [of_opt]. eexists. split; [reflexivity|].
  split; [rewrite set_length; auto|]. intros j Hj. rewrite filter_app, map_app. cbn [filter snd]. destruct (Nat.eqb_spec k j) as [->|N]; cbn [map app fst].
  - apply nth_error_set_eq. lia.
  - rewrite nth_error_set_neq by auto. rewrite app_nil_r. apply H; auto.
Qed.
Lemma placed_more l p l1 p1 (R := fun L P (e e' : nat * nat) => fst e = fst e' /\ (snd e' = snd e \/ (declone = true /\ snd e' = size - 1 /\ exists w, In (w, snd e) L /\ In (w, snd e) P /\ w <> fst e /\ same2 (fst e) w))) :
  forall L P, Forall2 (R L P) l p -> (forall x, In x L -> In x l1) -> (forall x, In x P -> In x p1) -> Forall2 (R l1 p1) l p.
Proof.
  intros L P H A B. induction H as [|e e' l p [H1 H2] F IH]; constructor; auto. split; [exact H1|].
  destruct H2 as [H2|(X & Y & w & W1 & W2 & W3)]; [auto|]. right. split; [exact X|]. split; [exact Y|]. exists w. auto.
Qed.
Lemma placed_fst l p : placed l p -> map fst l = map fst p.
Proof. intros H. unfold placed in H. revert H. generalize l at 1. generalize p at 1. intros P L. revert p. induction l as [|e l IH]; intros p H; inversion H; subst; cbn; [reflexivity|]. f_equal; [tauto|auto]. Qed.
Lemma nd_place_ok : forall sorted d last prev pf l p fronts, state_ok d last prev pf l -> placed l p -> fronts_ok fronts p -> firsts p ->
  (match prev with Some v => exists w, In (w, pf) l /\ In (w, pf) p /\ same2 v w | None => True end) ->
  (forall i, In i (map fst l ++ sorted) -> i < size) -> NoDup (map fst l ++ sorted) -> length l + length sorted <= size ->
  (forall a b i j, a < b -> nth_error (map fst l ++ sorted) a = Some i -> nth_error (map fst l ++ sorted) b = Some j -> ~ lexlt j i) ->
  exists l' p' fronts', nd_place max1 same declone vs sorted prev d last pf fronts = Ok fronts' /\
  map fst l' = map fst l ++ sorted /\ layered l' /\ placed l' p' /\ fronts_ok fronts' p' /\ firsts p' /\ (forall w g, In (w, g) l' -> g < size).
Proof.
  induction sorted as [|v sorted IH]; intros d last prev pf l p fronts St Pl Fr Fi Pv Lt ND Len Srt.
  - exists l, p, fronts. cbn [nd_place]. rewrite app_nil_r. split; [reflexivity|]. split; [reflexivity|]. split; [apply St|]. split; [exact Pl|]. split; [exact Fr|]. split; [exact Fi|].
    intros w g Hw. destruct St as (Ld & _ & _ & Hm & _). destruct (Hm w g Hw) as (x & _ & Hx & _). apply nth_error_lt in Hx. lia.
  - cbn [length] in Len. assert (Hv : v < size) by (apply Lt, in_or_app; right; left; auto).
    assert (Nv : forall w g, In (w, g) l -> w <> v).
    { intros w g Hw ->. apply NoDup_remove_2 in ND. apply ND, in_or_app. left. apply (in_map fst) in Hw. exact Hw. }
    assert (Ord : forall w g, In (w, g) l -> lexlt w v \/ same2 w v).
    { intros w g Hw. apply not_lex. apply (in_map fst) in Hw. cbn [fst] in Hw. apply In_nth_error in Hw as (a & Ha). assert (La := nth_error_lt _ _ _ Ha).
      apply (Srt a (length (map fst l))); [exact La|rewrite nth_error_app1; auto|]. rewrite nth_error_app2, Nat.sub_diag by lia. auto. }
    assert (Em : forall g, map fst (l ++ [(v, g)]) ++ sorted = map fst l ++ v :: sorted) by (intros g; rewrite map_app, <- app_assoc; auto).
    cbn [nd_place].
    destruct (match prev with Some q => same (nth v vs []) (nth q vs []) | None => false end) eqn:Eq.
    + destruct prev as [q|]; [|discriminate]. assert (Hq : q < size).
      { apply Lt, in_or_app. left. destruct St as (_ & _ & _ & _ & _ & [Hq _] & _). apply (in_map fst) in Hq. exact Hq. }
      apply (Hsame v q Hv Hq) in Eq. destruct Pv as (w & W1 & W2 & W3).
      assert (Svw : same2 v w) by (destruct Eq, W3; split; lra).
      assert (Hpf : pf < size). { destruct St as (Ld & _ & _ & Hm & _). destruct (Hm w pf W1) as (x & _ & Hx & _). apply nth_error_lt in Hx. lia. }
      assert (L0 : length fronts = size) by apply Fr. rewrite L0.
      destruct (push_ok fronts p (if declone then size - 1 else pf) v Fr) as (fronts1 & E1 & Fr1); [destruct declone; lia|]. rewrite E1. cbn [rbind].
      destruct (IH d last (Some v) pf (l ++ [(v, pf)]) (p ++ [(v, if declone then size - 1 else pf)]) fronts1) as (l' & p' & fr' & R1 & R2 & R3 & R4 & R5 & R6 & R7).
      * eapply copy_ok; eauto.
      * apply Forall2_app.
        -- apply (placed_more l p _ _ l p Pl); intros x Hx; apply in_or_app; auto.
        -- constructor; [|constructor]. cbn [fst snd]. split; [reflexivity|]. destruct declone; [|auto]. right. split; [reflexivity|]. split; [reflexivity|].
           exists w. split; [apply in_or_app; auto|]. split; [apply in_or_app; auto|]. split; [eapply Nv; eauto|exact Svw].
      * exact Fr1.
      * intros Hd i j k Hi Hj Hk Nij. rewrite Hd in Hi, Hj. apply in_app_or in Hi as [Hi|[Hi|[]]]; apply in_app_or in Hj as [Hj|[Hj|[]]]; try (injection Hi as <- <-; lia); try (injection Hj as <- <-; lia). eapply Fi; eauto.
      * exists w. split; [apply in_or_app; auto|]. split; [apply in_or_app; auto|exact Svw].
      * rewrite Em. exact Lt.
      * rewrite Em. exact ND.
      * rewrite app_length. cbn. lia.
      * rewrite Em. exact Srt.
      * exists l', p', fr'. rewrite Em in R2. auto 12.
    + assert (New : forall w g, In (w, g) l -> lexlt w v).
      { intros w g Hw. destruct (Ord w g Hw) as [|Sm]; auto. exfalso. destruct prev as [q|].
        - destruct St as (_ & _ & _ & _ & _ & [Hq Ho] & _). assert (Lq : q < size) by (apply Lt, in_or_app; left; apply (in_map fst) in Hq; exact Hq).
          assert (N : ~ same2 v q) by (intros C; apply (Hsame v q Hv Lq) in C; congruence).
          destruct (Ord q pf Hq) as [Lqv|Sqv]; [|apply N, same2_sym; auto].
          assert (X := lex_same_trans _ _ _ (Ho w g Hw) Lqv). destruct Sm as [Q1 Q2]. destruct X as [C|[C1 C2]]; lra.
        - destruct St as (_ & _ & _ & _ & _ & -> & _). destruct Hw. }
      destruct (new_ok d last prev pf l v St) as (k & E1 & K1 & K2 & E2 & St1); [lia|exact New|].
      change (if max1 then (top - obj vs v 1)%Q else obj vs v 1) with (ky v). rewrite E1. cbn [rbind]. rewrite E2. cbn [of_opt rbind].
      destruct (push_ok fronts p k v Fr K2) as (fronts1 & E3 & Fr1). rewrite E3. cbn [rbind].
      destruct (IH (set d k (ky v)) (if k =? last then S last else last) (Some v) k (l ++ [(v, k)]) (p ++ [(v, k)]) fronts1) as (l' & p' & fr' & R1 & R2 & R3 & R4 & R5 & R6 & R7).
      * exact St1.
      * apply Forall2_app.
        -- apply (placed_more l p _ _ l p Pl); intros x Hx; apply in_or_app; auto.
        -- constructor; [|constructor]. auto.
      * exact Fr1.
      * assert (Old : forall i g, In (i, g) p -> lexlt i v).
        { intros i g Hi. apply (in_map fst) in Hi. rewrite <- (placed_fst _ _ Pl) in Hi. apply in_map_iff in Hi as ([i' g'] & Ei & Hi). cbn [fst] in Ei. subst i'. eauto. }
        assert (Ns : forall i, lexlt i v -> ~ same2 i v) by (intros i [X|[X Y]] [C1 C2]; lra).
        intros Hd i j k' Hi Hj Hk Nij. apply in_app_or in Hi as [Hi|[Hi|[]]]; apply in_app_or in Hj as [Hj|[Hj|[]]].
        -- eapply Fi; eauto.
        -- injection Hj as <- <-. apply Ns. eauto.
        -- injection Hi as <- <-. intros C. apply same2_sym in C. revert C. apply Ns. eauto.
        -- congruence.
      * exists v. split; [apply in_or_app; right; left; auto|]. split; [apply in_or_app; right; left; auto|]. split; reflexivity.
      * rewrite Em. exact Lt.
      * rewrite Em. exact ND.
      * rewrite app_length. cbn. lia.
      * rewrite Em. exact Srt.
      * exists l', p', fr'. rewrite Em in R2. auto 12.
Qed.
End Place.

Section Worths.
Variable sort : forall X : Type, (X -> X -> bool) -> list X -> list X.
Hypothesis Hsort : std_sort_ok sort.
Variables (max0 max1 : bool) (tol : Q) (same : list Q -> list Q -> bool) (vs : list (list Q)).
Notation size := (length vs).
Hypothesis Htol : (0 < tol)%Q.
Hypothesis Hlen : forall v, In v vs -> length v = 2.
Hypothesis Hsep : forall a b o x y, In a vs -> In b vs -> nth_error a o = Some x -> nth_error b o = Some y -> (Qabs (x - y) < tol)%Q -> (x == y)%Q.
Hypothesis Heq : forall a b, In a vs -> In b vs -> (same a b = true <-> equal_vectors a b).
Definition worse2 (a b : list Q) : Prop := dominates [negb max0; negb max1] b a.

Lemma obj_at i a o : nth_error vs i = Some a -> obj vs i o = nth o a 0%Q.
Proof. intros H. unfold obj. rewrite (List.nth_error_nth _ _ (hd [] vs) H). reflexivity. Qed.
Lemma member_hd i : vs <> [] -> In (nth i vs (hd [] vs)) vs.
Proof. intros Ne. destruct (Nat.lt_ge_cases i size) as [H|H]; [apply nth_In; auto|]. rewrite nth_overflow by auto. destruct vs; [congruence|left; reflexivity]. Qed.
Lemma obj_sep i j o : vs <> [] -> o < 2 -> (Qabs (obj vs i o - obj vs j o) < tol)%Q -> (obj vs i o == obj vs j o)%Q.
Proof.
  intros Ne Ho. unfold obj. assert (A := member_hd i Ne). assert (B := member_hd j Ne). assert (L1 := Hlen _ A). assert (L2 := Hlen _ B).
  intros H. refine (Hsep _ _ o _ _ A B _ _ H); apply nth_error_nth'; lia.
Qed.
Notation lex := (lexlt max0 max1 vs).
Notation same' := (same2 max0 max1 vs).
Lemma near i j o : vs <> [] -> o < 2 -> if qltb (Qabs (obj vs i o - obj vs j o)) tol then (obj vs i o == obj vs j o)%Q else ~ (obj vs i o == obj vs j o)%Q.
Proof.
  intros Ne Ho. destruct (qltb (Qabs (obj vs i o - obj vs j o)) tol) eqn:E.
  - apply qltb_lt in E. apply obj_sep; auto.
  - apply qltb_ge in E. intros C. assert (X : (Qabs (obj vs i o - obj vs j o) == 0)%Q) by (rewrite C; setoid_replace (obj vs j o - obj vs j o)%Q with 0%Q by lra; reflexivity). lra.
Qed.
Lemma qltb_iff a b : qltb a b = true <-> (a < b)%Q.
Proof. split; [apply qltb_lt|]. intros H. destruct (qltb a b) eqn:E; auto. apply qltb_ge in E. lra. Qed.
Lemma nd_before_lex i j : vs <> [] -> nd_before max0 max1 tol vs i j = true <-> lex i j.
Proof.
  intros Ne. unfold nd_before, lexlt, kx, ky. assert (N0 := near i j 0 Ne ltac:(lia)). assert (N1 := near i j 1 Ne ltac:(lia)).
  destruct (qltb (Qabs (obj vs i 0 - obj vs j 0)) tol), (qltb (Qabs (obj vs i 1 - obj vs j 1)) tol), max0, max1; cbv zeta; rewrite ?qltb_iff;
    (split; [intros H; try discriminate; lra|intros [H|[H H']]; try lra]).
Qed.
Lemma lex_swo : vs <> [] -> strict_weak_order (nd_before max0 max1 tol vs).
Proof.
  intros Ne. repeat split; intros *; rewrite <- ?not_true_iff_false, !(fun i j => nd_before_lex i j Ne); unfold lexlt.
  - intros [H|[H1 H2]]; lra.
  - intros [H|[H1 H2]] [H'|[H1' H2']]; try (left; lra). right. split; lra.
  - intros N1 N2 [C|[C1 C2]].
    + destruct (Qlt_le_dec (kx max0 vs a) (kx max0 vs b)); [tauto|]. apply N2. left. lra.
    + destruct (Q_dec (kx max0 vs a) (kx max0 vs b)) as [[L|L]|L]; [tauto|apply N2; left; lra|].
      destruct (Qlt_le_dec (ky max1 vs a) (ky max1 vs b)); [apply N1; auto|]. apply N2. right. split; lra.
Qed.
Lemma two_elements (a : list Q) : length a = 2 -> exists x y, a = [x; y].
Proof. destruct a as [|x [|y [|]]]; try discriminate. eauto. Qed.
Lemma same_iff i j a b : nth_error vs i = Some a -> nth_error vs j = Some b -> (same' i j <-> equal_vectors a b).
Proof.
  intros Ha Hb. destruct (two_elements a) as (a0 & a1 & ->); [apply Hlen; eapply nth_error_In; eauto|]. destruct (two_elements b) as (b0 & b1 & ->); [apply Hlen; eapply nth_error_In; eauto|].
  unfold same2, kx, ky. rewrite !(obj_at _ _ _ Ha), !(obj_at _ _ _ Hb). cbn [nth]. unfold equal_vectors. split.
  - intros [H1 H2]. split; [reflexivity|]. intros [|[|k]] x y Hx Hy; cbn in Hx, Hy; [injection Hx as <-; injection Hy as <-; destruct max0; lra|injection Hx as <-; injection Hy as <-; destruct max1; lra|destruct k; discriminate].
  - intros [_ H]. assert (X := H 0 _ _ eq_refl eq_refl). assert (Y := H 1 _ _ eq_refl eq_refl). cbv beta in X, Y. split; [destruct max0; lra|destruct max1; lra].
Qed.
Lemma dom_iff i j a b : nth_error vs i = Some a -> nth_error vs j = Some b -> (dom2 max0 max1 vs i j <-> worse2 a b).
Proof.
  intros Ha Hb. destruct (two_elements a) as (a0 & a1 & ->); [apply Hlen; eapply nth_error_In; eauto|]. destruct (two_elements b) as (b0 & b1 & ->); [apply Hlen; eapply nth_error_In; eauto|].
  unfold dom2, same2, kx, ky. rewrite !(obj_at _ _ _ Ha), !(obj_at _ _ _ Hb). cbn [nth]. unfold worse2, dominates, objective, better, better_by. split.
  - intros (H1 & H2 & H3). split.
    + intros [|[|k]] d x y (Hd & Hx & Hy); cbn in Hd, Hx, Hy; [injection Hx as <-; injection Hy as <-; injection Hd as <-; destruct max0; cbn; lra|injection Hx as <-; injection Hy as <-; injection Hd as <-; destruct max1; cbn; lra|destruct k; discriminate].
    + destruct (Qeq_dec a0 b0) as [E|N].
      * exists 1, (negb max1), b1, a1. repeat split. destruct (Qeq_dec a1 b1) as [E1|N1]; [exfalso; apply H3; split; [destruct max0; lra|destruct max1; lra]|]. destruct max1; cbn; lra.
      * exists 0, (negb max0), b0, a0. repeat split. destruct max0; cbn; lra.
  - intros [H1 (k & d & x & y & (Hd & Hx & Hy) & Hb')]. assert (X := H1 0 _ _ _ (conj eq_refl (conj eq_refl eq_refl))). assert (Y := H1 1 _ _ _ (conj eq_refl (conj eq_refl eq_refl))).
    repeat split; [destruct max0; cbn in X; lra|destruct max1; cbn in Y; lra|]. intros [C1 C2].
    destruct k as [|[|k]]; cbn in Hd, Hx, Hy; [injection Hx as <-; injection Hy as <-; injection Hd as <-; destruct max0; cbn in Hb'; lra|injection Hx as <-; injection Hy as <-; injection Hd as <-; destruct max1; cbn in Hb'; lra|destruct k; discriminate].
Qed.
Lemma NoDup_fst_inj {X} : forall (l : list (nat * X)) i k k', NoDup (map fst l) -> In (i, k) l -> In (i, k') l -> k = k'.
Proof.
  induction l as [|[j x] l IH]; intros i k k' ND H H'; [destruct H|]. cbn in ND. inversion ND as [|? ? N1 N2]; subst.
  destruct H as [H|H], H' as [H'|H']; try congruence; eauto.
  - injection H as -> ->. exfalso. apply N1. apply (in_map fst) in H'. exact H'.
  - injection H' as -> ->. exfalso. apply N1. apply (in_map fst) in H. exact H.
Qed.
Lemma filter_nodup_fst {X} (f : nat * X -> bool) l : NoDup (map fst l) -> NoDup (map fst (filter f l)).
Proof.
  induction l as [|e l IH]; cbn; [auto|]. intros ND. inversion ND as [|? ? N1 N2]; subst. destruct (f e); [|auto]. cbn. constructor; [|auto].
  intros C. apply N1. apply in_map_iff in C as (y & E & C). apply filter_In in C as [C _]. rewrite <- E. apply in_map. exact C.
Qed.

(** the fronts *)
Lemma two_fronts declone : vs <> [] -> exists fronts, nd_place max1 same declone vs (sort nat (nd_before max0 max1 tol vs) (seq 0 size)) None (repeat (nd_top vs) size) 0 0 (repeat [] size) = Ok fronts /\
  if declone then fronts_without_copies worse2 equal_vectors vs fronts else the_fronts worse2 vs fronts.
Proof.
  intros Ne. destruct (Hsort nat (nd_before max0 max1 tol vs) (seq 0 size) (lex_swo Ne)) as [P St]. set (sorted := sort nat (nd_before max0 max1 tol vs) (seq 0 size)) in *. clearbody sorted. apply Permutation_sym in P.
  assert (Ls : length sorted = size) by (rewrite (Permutation_length P), seq_length; auto).
  assert (Ns : NoDup sorted) by (eapply Permutation_NoDup; [apply Permutation_sym; exact P|apply seq_NoDup]).
  assert (Rs : forall p, In p sorted <-> p < size). { intros p. split; intros Hp; [apply (Permutation_in _ P), in_seq in Hp; lia|apply (Permutation_in _ (Permutation_sym P)), in_seq; lia]. }
  assert (At : forall i, i < size -> exists a, nth_error vs i = Some a /\ nth i vs [] = a). { intros i Hi. exists (nth i vs []). split; [apply nth_error_nth'; auto|reflexivity]. }
  assert (Hs : forall i j, i < size -> j < size -> (same (nth i vs []) (nth j vs []) = true <-> same' i j)).
  { intros i j Hi Hj. destruct (At i Hi) as (a & Ha & ->). destruct (At j Hj) as (b & Hb & ->). rewrite (same_iff i j a b Ha Hb). apply Heq; eapply nth_error_In; eauto. }
  destruct (nd_place_ok max0 max1 same declone vs Hs sorted (repeat (nd_top vs) size) 0 None 0 [] [] (repeat [] size)) as (l & p & fronts & E & L1 & Lay & Pl & [Fl Fr] & Fi & Lt).
  { split; [apply repeat_length|]. split; [auto|]. split; [constructor|]. split; [intros w g []|]. split; [intros; lia|]. split; [reflexivity|]. intros w g []. }
  { constructor. } { split; [apply repeat_length|]. intros k Hk. cbn. apply nth_error_rep. exact Hk. } { intros _ i j k []. } { exact Logic.I. } { cbn. intros i Hi. apply Rs, Hi. } { exact Ns. } { cbn. lia. }
  { cbn [map app]. intros a b i j Hab Ha Hb C. assert (X := StronglySorted_nth _ _ _ _ _ _ St Hab Ha Hb). cbv beta in X. apply nd_before_lex in C; auto. congruence. }
  cbn [map app] in L1. exists fronts. split; [exact E|].
  assert (Nl : NoDup (map fst l)) by (rewrite L1; exact Ns). assert (Np : NoDup (map fst p)) by (rewrite <- (placed_fst _ _ _ _ _ _ Pl); exact Nl).
  assert (Il : forall i, i < size -> exists g, In (i, g) l). { intros i Hi. apply Rs in Hi. rewrite <- L1 in Hi. apply in_map_iff in Hi as ([i' g] & Ei & Hi). cbn [fst] in Ei. subst i'. eauto. }
  (* the front of each member *)
  set (f := fun i => match find (fun e => fst e =? i) l with Some e => S (snd e) | None => 1 end).
  assert (Hf : forall i g, In (i, g) l -> f i = S g).
  { intros i g Hi. unfold f. destruct (find (fun e => fst e =? i) l) as [[i' g']|] eqn:Ef.
    - apply find_some in Ef as [E1 E2]. cbn [fst snd] in *. apply Nat.eqb_eq in E2. subst i'. f_equal. exact (NoDup_fst_inj l i g' g Nl E1 Hi).
    - apply (find_none _ _ Ef) in Hi. cbn [fst] in Hi. rewrite Nat.eqb_refl in Hi. discriminate. }
  assert (Lf : forall i, i < size -> In (i, f i - 1) l). { intros i Hi. destruct (Il i Hi) as (g & Hg). rewrite (Hf _ _ Hg). replace (S g - 1) with g by lia. exact Hg. }
  assert (Rl : forall i g, In (i, g) l -> i < size). { intros i g Hi. apply Rs. rewrite <- L1. apply (in_map fst) in Hi. exact Hi. }
  assert (Front : forall i, i < size -> in_front_number worse2 vs i (f i)).
  { apply (layering worse2 vs f).
    - intros i Hi. destruct (Il i Hi) as (g & Hg). rewrite (Hf _ _ Hg). lia.
    - intros i Hi H1. destruct (Il i Hi) as (g & Hg). rewrite (Hf _ _ Hg) in *. destruct (Lay _ _ Hg) as [A _]. destruct A as (w & g' & B1 & B2 & B3); [lia|].
      destruct (At i Hi) as (a & Ha & _). destruct (At w (Rl _ _ B1)) as (b & Hb & _). exists w. split; [exists a, b; split; [exact Ha|]; split; [exact Hb|]; apply (dom_iff i w); auto|]. rewrite (Hf _ _ B1). lia.
    - intros i j (a & b & Ha & Hb & D). apply (dom_iff i j a b Ha Hb) in D. assert (Hi := nth_error_lt _ _ _ Ha). assert (Hj := nth_error_lt _ _ _ Hb).
      destruct (Il i Hi) as (g & Hg). destruct (Il j Hj) as (g' & Hg'). rewrite (Hf _ _ Hg), (Hf _ _ Hg'). destruct (Lay _ _ Hg) as [_ A]. assert (X := A _ _ Hg' D). lia. }
  assert (Inf : forall k fr i, nth_error fronts k = Some fr -> (In i fr <-> In (i, k) p)).
  { intros k fr i Hk. assert (Lk := nth_error_lt _ _ _ Hk). rewrite Fl in Lk. rewrite (Fr k Lk) in Hk. injection Hk as <-. rewrite in_map_iff. split.
    - intros ([i' k'] & Ei & Hi). apply filter_In in Hi as [Hi Hk]. cbn [fst snd] in *. apply Nat.eqb_eq in Hk. subst. exact Hi.
    - intros Hi. exists (i, k). split; [reflexivity|]. apply filter_In. split; [exact Hi|]. cbn. apply Nat.eqb_refl. }
  assert (Nf : Forall (@NoDup nat) fronts).
  { apply Forall_forall. intros fr Hfr. apply In_nth_error in Hfr as (k & Hk). assert (Lk := nth_error_lt _ _ _ Hk). rewrite Fl in Lk. rewrite (Fr k Lk) in Hk. injection Hk as <-. apply filter_nodup_fst. exact Np. }
  assert (Pp : forall i k, In (i, k) p -> exists g, In (i, g) l /\ (k = g \/ (declone = true /\ k = size - 1 /\ exists w, In (w, g) l /\ In (w, g) p /\ w <> i /\ same' i w))).
  { intros i k Hp. unfold placed in Pl. apply In_nth_error in Hp as (a & Ha). destruct (nth_error l a) as [[i' g]|] eqn:El.
    - destruct (Forall2_at' _ _ _ Pl _ _ Ha) as (e & Ee & R). rewrite El in Ee. injection Ee as <-. cbn [fst snd] in R. destruct R as [-> R]. exists g. split; [eapply nth_error_In; eauto|exact R].
    - apply nth_error_None in El. apply nth_error_lt in Ha. apply Forall2_len' in Pl. lia. }
  destruct declone.
  - split; [exact Fl|]. split; [|split; [|split]].
    + apply concat_nodup; auto. intros k k' i fr fr' A B C D. apply (Inf _ _ _ A) in C. apply (Inf _ _ _ B) in D. exact (NoDup_fst_inj p i k k' Np C D).
    + intros i. rewrite in_concat. split.
      * intros (fr & Hfr & Hi). apply In_nth_error in Hfr as (k & Hk). apply (Inf _ _ _ Hk) in Hi. destruct (Pp _ _ Hi) as (g & Hg & _). eauto.
      * intros Hi. apply Rs in Hi. rewrite <- L1, (placed_fst _ _ _ _ _ _ Pl) in Hi. apply in_map_iff in Hi as ([i' k] & Ei & Hi). cbn [fst] in Ei. subst i'.
        assert (Lk : k < size). { destruct (Pp _ _ Hi) as (g & Hg & [->|(_ & -> & _)]); [eauto|]. destruct vs; cbn; [congruence|lia]. }
        exists (map fst (filter (fun e => snd e =? k) p)). split; [eapply nth_error_In; apply Fr; exact Lk|]. apply (Inf k); [apply Fr; exact Lk|exact Hi].
    + intros k fr i a Hk Hi Ha. apply (Inf _ _ _ Hk) in Hi. destruct (Pp _ _ Hi) as (g & Hg & [->|(_ & -> & w & W1 & W2 & W3 & W4)]).
      * left. rewrite <- (Hf _ _ Hg). apply Front. eauto.
      * right. split; [destruct vs; cbn; [congruence|lia]|]. destruct (At w (Rl _ _ W1)) as (b & Hb & _). assert (Lg := Lt _ _ W1).
        exists w, g, (map fst (filter (fun e => snd e =? g) p)), b. split; [exact W3|]. split; [exact Hb|]. split; [apply (same_iff i w a b Ha Hb); exact W4|].
        split; [rewrite <- (Hf _ _ W1); apply Front; eauto|]. split; [apply Fr; exact Lg|]. apply (Inf g); [apply Fr; exact Lg|exact W2].
    + intros k fr i j a b Hk Hfr Hi Hj Nij Ha Hb C. apply (Inf _ _ _ Hfr) in Hi, Hj. apply (same_iff i j a b Ha Hb) in C. revert C. eapply Fi; eauto.
  - assert (Pl' : forall i k, In (i, k) p <-> In (i, k) l).
    { intros i k. split; [intros Hi; destruct (Pp _ _ Hi) as (g & Hg & [->|(X & _)]); [exact Hg|discriminate]|]. intros Hi.
      assert (Hi' := Hi). apply (in_map fst) in Hi'. rewrite (placed_fst _ _ _ _ _ _ Pl) in Hi'. apply in_map_iff in Hi' as ([i' k'] & Ei & Hi'). cbn [fst] in Ei. subst i'.
      destruct (Pp _ _ Hi') as (g & Hg & [->|(X & _)]); [|discriminate]. rewrite (NoDup_fst_inj l i k g Nl Hi Hg). exact Hi'. }
    assert (Iff : forall k i, (exists fr, nth_error fronts k = Some fr /\ In i fr) <-> in_front_number worse2 vs i (S k)).
    2: { split; [exact Iff|]. split; [exact Nf|]. intros i Hi. assert (Y := Lf i Hi). destruct (proj2 (Iff (f i - 1) i)) as (fr & Hk & Hi'); [|exists fr; split; [eapply nth_error_In; eauto|exact Hi']].
         replace (S (f i - 1)) with (f i); [auto|]. rewrite (Hf _ _ Y). lia. }
    intros k i. split.
    + intros (fr & Hk & Hi). apply (Inf _ _ _ Hk), Pl' in Hi. rewrite <- (Hf _ _ Hi). apply Front. eauto.
    + intros Hfn. assert (Hi : i < size) by (destruct Hfn as (_ & X & _); eapply surv_lt; eauto). assert (X := front_unique _ _ _ _ _ Hfn (Front i Hi)). assert (Y := Lf i Hi). rewrite <- X in Y. replace (S k - 1) with k in Y by lia.
      assert (Lk := Lt _ _ Y). exists (map fst (filter (fun e => snd e =? k) p)). split; [apply Fr; exact Lk|]. apply (Inf k); [apply Fr; exact Lk|]. apply Pl'. exact Y.
Qed.
Lemma two_worths niche value : vs <> [] -> penalises worse2 vs niche ->
  exists fronts ws, nd_two niche sort max0 max1 tol same false vs value = Ok ws /\ length ws = size /\ the_fronts worse2 vs fronts /\ worths_by_front niche fronts ws.
Proof.
  intros Ne Pn. destruct (two_fronts false Ne) as (fronts & E & TF). destruct (the_fronts_nodup _ _ _ TF) as [ND Lt].
  destruct (niche_fronts_ok niche size fronts 0 (resized 0%Q value size) (resized_length _ _ _) ND Lt (penalises_fronts _ _ _ _ TF Pn)) as (v' & E2 & L & _ & G).
  assert (Ps : 0 < size) by (destruct vs; cbn; [congruence|lia]).
  destruct (worths_ok niche size fronts v' L Ps) as (ws & Ew & Lw & W); [|exact G|].
  { intros i Hi. destruct TF as (_ & _ & All). destruct (All i Hi) as (fr & Hf & Hi'). apply In_nth_error in Hf as (k & Hk). eauto. }
  exists fronts, ws. unfold nd_two. rewrite E. cbn [rbind]. rewrite E2. cbn [rbind]. auto.
Qed.
Lemma two_worths_declone niche value : vs <> [] -> good_niche size niche ->
  exists fronts ws, nd_two niche sort max0 max1 tol same true vs value = Ok ws /\ length ws = size /\ fronts_without_copies worse2 equal_vectors vs fronts /\ worths_by_front niche fronts ws.
Proof.
  intros Ne Pn. destruct (two_fronts true Ne) as (fronts & E & TF). assert (TF' := TF). destruct TF' as (Lf & ND & Lt & _).
  assert (Fp : Forall (fun fr => fr <> [] -> penal niche fr) fronts).
  { apply Forall_forall. intros fr Hfr Nf. apply Pn; [exact Nf| |].
    - apply in_split in Hfr as (l1 & l2 & ->). rewrite concat_app in ND. cbn in ND. apply nodup_app_r in ND. apply nodup_app_l in ND. exact ND.
    - intros i Hi. apply Lt, in_concat. eauto. }
  destruct (niche_fronts_ok niche size fronts 0 (resized 0%Q value size) (resized_length _ _ _) ND (fun i H => proj1 (Lt i) H) Fp) as (v' & E2 & L & _ & G).
  assert (Ps : 0 < size) by (destruct vs; cbn; [congruence|lia]).
  destruct (worths_ok niche size fronts v' L Ps) as (ws & Ew & Lw & W); [|exact G|].
  { intros i Hi. apply Lt, in_concat in Hi as (fr & Hfr & Hi). apply In_nth_error in Hfr as (k & Hk). eauto. }
  exists fronts, ws. unfold nd_two. rewrite E. cbn [rbind]. rewrite E2. cbn [rbind]. auto.
Qed.
End Worths.
