From Coq Require Import List Arith Bool Lia.
From Verif Require Import Lib Outcome GpModel GpSpec.
From Coq Require Import List.
Import ListNotations.
Open Scope nat_scope.

Lemma concat_rev_cons {A} (l : list A) ls : concat (rev (l :: ls)) = concat (rev ls) ++ l.
Proof. cbn. rewrite concat_app. cbn. now rewrite app_nil_r. Qed.

Lemma nodup_app {A} (l1 l2 : list A) : NoDup l1 -> NoDup l2 -> (forall x, In x l1 -> ~ In x l2) -> NoDup (l1 ++ l2).
Proof.
  induction l1 as [|a l1 IH]; intros H1 H2 H; cbn; auto. inversion_clear H1 as [|? ? Hn Hd]. constructor.
  - rewrite in_app_iff. intros [H3|H3]; [auto|]. apply (H a); [now left|auto].
  - apply IH; auto. intros x Hx. apply H. now right.
Qed.
Section Gp.
Context {N : Type}.
Variable arity : N -> nat.
Notation subtree := (subtree N).
Notation size := (size N).
Notation depth := (depth N).
Notation cumul := (cumul N).
Notation args := (args N).
Notation content := (content N).
Notation refresh := (refresh N).
Notation get_node := (get_node N).
Notation sub_at := (sub_at N).
Notation nth_node := (nth_node N).
Notation Sub := (Sub N).

Lemma sub_ind (P : subtree -> Prop) : (forall c a s d m, Forall P a -> P (Sub c a s d m)) -> forall t, P t.
Proof.
  intros H. fix F 1. intros [c a s d m]. apply H. induction a as [|x r IH]; constructor; [exact (F x)|exact IH].
Qed.
Lemma tree_ind' (P : tree N -> Prop) : (forall n a, Forall P a -> P (Tree n a)) -> forall t, P t.
Proof.
  intros H. fix F 1. intros [n a]. apply H. induction a as [|x r IH]; constructor; [exact (F x)|exact IH].
Qed.

Lemma abs_eq t : abs t = Tree (content t) (map abs (args t)).
Proof. now destruct t. Qed.
Lemma count_pos (t : tree N) : 1 <= count t.
Proof. destruct t. cbn. lia. Qed.
Lemma stats_args t : true_stats t -> Forall true_stats (args t).
Proof. now intros []. Qed.
Lemma stats_size t : true_stats t -> size t = count (abs t).
Proof. now intros []. Qed.

(** *** updateAfterInsert *)
Lemma fold_size a : Forall true_stats a -> forall k, fold_left (fun n t => n + size t) a k = k + list_sum (map count (map abs a)).
Proof.
  induction 1 as [|t a Ht _ IH]; intros k; cbn [fold_left map]; [cbn; lia|]. rewrite IH, (stats_size _ Ht).
  change (list_sum (count (abs t) :: map count (map abs a))) with (count (abs t) + list_sum (map count (map abs a))). lia.
Qed.
Lemma fold_cumul a : Forall true_stats a -> forall k, fold_left (fun n t => n + cumul t) a k = k + list_sum (map total (map abs a)).
Proof.
  induction 1 as [|t a Ht _ IH]; intros k; cbn [fold_left map]; [cbn; lia|]. rewrite IH. destruct Ht as [t _ _ -> _].
  change (list_sum (total (abs t) :: map total (map abs a))) with (total (abs t) + list_sum (map total (map abs a))). lia.
Qed.
Lemma fold_depth a : Forall true_stats a -> forall k, fold_left (fun d t => if d <? depth t then depth t else d) a k = Nat.max k (list_max (map height (map abs a))).
Proof.
  induction 1 as [|t a Ht _ IH]; intros k; cbn [fold_left map]; [cbn; lia|]. rewrite IH. destruct Ht as [t _ -> _ _].
  change (list_max (height (abs t) :: map height (map abs a))) with (Nat.max (height (abs t)) (list_max (map height (map abs a)))).
  destruct (k <? height (abs t)) eqn:E; [apply Nat.ltb_lt in E|apply Nat.ltb_ge in E]; lia.
Qed.
Lemma refresh_stats c a : Forall true_stats a -> true_stats (refresh c a).
Proof.
  intros H. unfold GpModel.refresh. constructor; cbn [GpModel.size GpModel.depth GpModel.cumul GpModel.args abs].
  - rewrite fold_size by auto. reflexivity.
  - rewrite fold_depth by auto. cbn [height]. now rewrite Nat.max_0_l.
  - rewrite fold_cumul, fold_size by auto. reflexivity.
  - exact H.
Qed.
Lemma refresh_abs c a : abs (refresh c a) = Tree c (map abs a).
Proof. reflexivity. Qed.
Lemma refresh_same t : true_stats t -> refresh (content t) (args t) = t.
Proof.
  intros H. pose proof (refresh_stats (content t) (args t) (stats_args _ H)) as H'.
  destruct t as [c a s d m]. cbn [GpModel.content GpModel.args] in *. inversion H as [t E1 E2 E3 _]; subst. inversion H' as [t F1 F2 F3 _]; subst.
  unfold GpModel.refresh in *. cbn [GpModel.size GpModel.depth GpModel.cumul] in *.
  change (abs (Sub c a (fold_left (fun n t => n + size t) a 1) _ _)) with (Tree c (map abs a)) in *.
  change (abs (Sub c a s d m)) with (Tree c (map abs a)) in *. congruence.
Qed.
Lemma sound_refresh c a : Forall (sound arity) a -> length a = arity c -> sound arity (refresh c a).
Proof.
  intros H Hl. split.
  - apply refresh_stats. eapply Forall_impl; [|exact H]. now intros t [].
  - rewrite refresh_abs. constructor; [now rewrite map_length|]. rewrite Forall_map. eapply Forall_impl; [|exact H]. now intros t [].
Qed.
Lemma sound_args t : sound arity t -> Forall (sound arity) (args t).
Proof.
  intros [H1 H2]. rewrite abs_eq in H2. inversion H2 as [n a Hl Ha]; subst. apply stats_args in H1.
  rewrite Forall_map in Ha. rewrite Forall_forall in *. intros x Hx. split; auto.
Qed.
Lemma sound_arity t : sound arity t -> length (args t) = arity (content t).
Proof. intros [_ H]. rewrite abs_eq in H. inversion H; subst. now rewrite map_length in *. Qed.

(** *** numbering of the nodes *)
Fixpoint ways (t : tree N) : list (list nat) :=
  match t with Tree _ a => (fix go (l : list (tree N)) (i : nat) : list (list nat) := match l with [] => [] | x :: r => go r (S i) ++ map (cons i) (ways x) end) a 0 ++ [[]] end.
Fixpoint ways_go (l : list (tree N)) (i : nat) : list (list nat) :=
  match l with [] => [] | x :: r => ways_go r (S i) ++ map (cons i) (ways x) end.
Lemma ways_eq n a : ways (Tree n a) = ways_go a 0 ++ [[]].
Proof. reflexivity. Qed.
Lemma ways_length t : length (ways t) = count t.
Proof.
  induction t as [n a IH] using tree_ind'. rewrite ways_eq, app_length. cbn [length count].
  assert (H : forall i, length (ways_go a i) = list_sum (map count a)).
  { induction IH as [|x r Hx _ IHr]; intros i; auto. cbn [ways_go map]. rewrite app_length, map_length, IHr, Hx.
    change (list_sum (count x :: map count r)) with (count x + list_sum (map count r)). lia. }
  rewrite H. lia.
Qed.

Fixpoint gn_loop (l : list subtree) (i w : nat) : list nat + nat :=
  match l with
  | [] => inr w
  | x :: r => match gn_loop r (S i) w with
              | inl p => inl p
              | inr w' => if w' <? size x then inl (i :: get_node x w') else inr (w' - size x)
              end
  end.
Lemma get_node_eq c a s d m w : get_node (Sub c a s d m) w = if w =? s - 1 then [] else match gn_loop a 0 w with inl p => p | inr _ => [] end.
Proof.
  cbn [GpModel.get_node]. destruct (w =? s - 1); auto.
  match goal with |- match ?f a 0 with inl p => p | inr _ => [] end = _ => assert (E : forall i, f a i = gn_loop a i w) end.
  { induction a as [|x r IH]; intros i; auto. cbn [gn_loop]. now rewrite IH. }
  now rewrite E.
Qed.
Lemma get_node_ways : forall t, true_stats t -> forall w, w < size t -> nth_error (ways (abs t)) w = Some (get_node t w).
Proof.
  induction t as [c a s d m IH] using sub_ind. intros Ht w Hw.
  assert (HS := stats_size _ Ht). cbn [GpModel.size] in Hw, HS. cbn [abs] in HS |- *. cbn [count] in HS. rewrite ways_eq, get_node_eq.
  apply stats_args in Ht. cbn [GpModel.args] in Ht.
  assert (HL : forall i, (w < list_sum (map count (map abs a)) -> exists p, gn_loop a i w = inl p /\ nth_error (ways_go (map abs a) i) w = Some p) /\
                         (list_sum (map count (map abs a)) <= w -> gn_loop a i w = inr (w - list_sum (map count (map abs a))))).
  { clear HS Hw. induction IH as [|x r Hx _ IHr]; intros i; inversion_clear Ht as [|? ? Hsx Hsr].
    - cbn. split; intros; [lia|f_equal; lia].
    - cbn [gn_loop map ways_go]. change (list_sum (count (abs x) :: map count (map abs r))) with (count (abs x) + list_sum (map count (map abs r))).
      specialize (IHr Hsr (S i)). destruct IHr as [I1 I2]. set (sr := list_sum (map count (map abs r))) in *. rewrite (stats_size _ Hsx).
      assert (Hgl : forall l j, length (ways_go (map abs l) j) = list_sum (map count (map abs l))).
      { clear. induction l as [|y l IHl]; intros j; auto. cbn [map ways_go]. rewrite app_length, map_length, ways_length, IHl.
        change (list_sum (count (abs y) :: map count (map abs l))) with (count (abs y) + list_sum (map count (map abs l))). lia. }
      destruct (Nat.lt_ge_cases w sr) as [L|G].
      + destruct (I1 L) as (p & -> & Hp). split; intros; [|lia]. exists p. split; auto. rewrite nth_error_app1; auto. rewrite Hgl. exact L.
      + rewrite (I2 G). destruct (w - sr <? count (abs x)) eqn:E; [apply Nat.ltb_lt in E|apply Nat.ltb_ge in E].
        * split; intros; [|lia]. eexists. split; [reflexivity|]. rewrite nth_error_app2 by (rewrite Hgl; exact G). rewrite Hgl. fold sr.
          rewrite nth_error_map', (Hx Hsx) by (rewrite (stats_size _ Hsx); exact E). reflexivity.
        * split; intros; [lia|]. f_equal. lia. }
  assert (Hgl : length (ways_go (map abs a) 0) = list_sum (map count (map abs a))).
  { generalize 0. clear. induction a as [|y l IHl]; intros j; auto. cbn [map ways_go]. rewrite app_length, map_length, ways_length, IHl.
    change (list_sum (count (abs y) :: map count (map abs l))) with (count (abs y) + list_sum (map count (map abs l))). lia. }
  destruct (w =? s - 1) eqn:E; [apply Nat.eqb_eq in E|apply Nat.eqb_neq in E].
  - rewrite nth_error_app2 by lia. replace (w - length (ways_go (map abs a) 0)) with 0 by lia. reflexivity.
  - destruct (HL 0) as [H1 _]. destruct H1 as (p & -> & Hp); [lia|]. rewrite nth_error_app1; auto. lia.
Qed.

(** the ways, the subtrees and the nodes in the same order *)
Lemma in_ways t p : In p (ways t) <-> follow t p <> None.
Proof.
  revert p. induction t as [n a IH] using tree_ind'. intros p. rewrite ways_eq, in_app_iff.
  assert (H : forall i, In p (ways_go a i) <-> exists k q x, p = (i + k) :: q /\ nth_error a k = Some x /\ follow x q <> None).
  { induction IH as [|x r Hx _ IHr]; intros i; cbn [ways_go].
    - split; [intros []|]. intros ([|k] & q & y & _ & H & _); discriminate.
    - rewrite in_app_iff, IHr, in_map_iff. split.
      + intros [(k & q & y & -> & Hk & Hq)|(q & <- & Hq)].
        * exists (S k), q, y. repeat split; auto. f_equal; lia.
        * exists 0, q, x. rewrite Nat.add_0_r. repeat split; auto. now apply Hx.
      + intros ([|k] & q & y & -> & Hk & Hq); cbn in Hk.
        * injection Hk as ->. right. exists q. rewrite Nat.add_0_r. split; auto. now apply Hx.
        * left. exists k, q, y. repeat split; auto. f_equal; lia. }
  rewrite H. destruct p as [|i q]; cbn [follow].
  - split; [discriminate|]. intros _. right. now left.
  - split.
    + intros [(k & q' & x & [= -> ->] & -> & Hq)|[|[]]]; [exact Hq|discriminate].
    + intros Hf. left. destruct (nth_error a i) as [x|] eqn:Ei; [|congruence]. exists i, q, x. auto.
Qed.
Lemma ways_nodup t : NoDup (ways t).
Proof.
  induction t as [n a IH] using tree_ind'. rewrite ways_eq.
  assert (H : forall i, NoDup (ways_go a i) /\ forall p, In p (ways_go a i) -> exists j q, p = j :: q /\ i <= j).
  { induction IH as [|x r Hx _ IHr]; intros i; cbn [ways_go]; [split; [constructor|intros p []]|].
    destruct (IHr (S i)) as [I1 I2]. split.
    - apply nodup_app; auto; [apply FinFun.Injective_map_NoDup; auto; intros u v [= ->]; auto|].
      intros p Hp Hq. apply I2 in Hp as (j & q & -> & Hj). apply in_map_iff in Hq as (q' & [= -> _] & _). lia.
    - intros p Hp. apply in_app_iff in Hp as [Hp|Hp].
      + apply I2 in Hp as (j & q & -> & Hj). exists j, q. split; auto. lia.
      + apply in_map_iff in Hp as (q & <- & _). eauto. }
  destruct (H 0) as [H1 H2]. apply nodup_app; auto; [repeat constructor; intros []|].
  intros p Hp [<-|[]]. apply H2 in Hp as (j & q & Hp & _). discriminate.
Qed.
Lemma subtrees_eq (n : N) a : subtrees (Tree n a) = concat (rev (map subtrees a)) ++ [Tree n a].
Proof. reflexivity. Qed.
Lemma map_follow_subtrees t : map (follow t) (ways t) = map Some (subtrees t).
Proof.
  induction t as [n a IH] using tree_ind'. rewrite ways_eq, subtrees_eq, !map_app. f_equal.
  assert (H : forall b l i, a = b ++ l -> length b = i -> map (follow (Tree n a)) (ways_go l i) = map Some (concat (rev (map subtrees l)))).
  { intros b l. revert b. induction l as [|x r IHl]; intros b i Ea Hb; auto. cbn [ways_go map]. rewrite concat_rev_cons, !map_app. f_equal.
    - apply (IHl (b ++ [x])); [now rewrite <- app_assoc|]. rewrite app_length. cbn. lia.
    - rewrite map_map. cbn [follow]. assert (E : nth_error a i = Some x) by (rewrite Ea, nth_error_app2, Hb, Nat.sub_diag by lia; reflexivity). rewrite E.
      rewrite Forall_forall in IH. apply IH. rewrite Ea. apply in_app_iff. right. now left. }
  apply (H []); auto.
Qed.
Definition root (t : tree N) : N := match t with Tree n _ => n end.
Lemma map_root_subtrees t : map root (subtrees t) = postfix t.
Proof.
  induction t as [n a IH] using tree_ind'. rewrite subtrees_eq, map_app. cbn [postfix map root]. f_equal.
  induction IH as [|x r Hx _ IHr]; auto. cbn [map]. rewrite !concat_rev_cons, map_app, IHr, Hx. reflexivity.
Qed.
Lemma subtrees_length (t : tree N) : length (subtrees t) = count t.
Proof. rewrite <- ways_length, <- (map_length Some), <- map_follow_subtrees, map_length. reflexivity. Qed.
Lemma postfix_length (t : tree N) : length (postfix t) = count t.
Proof. rewrite <- map_root_subtrees, map_length. apply subtrees_length. Qed.

(** *** the subtree at a way *)
Lemma sub_at_follow : forall p t s, sub_at t p = Ok s -> follow (abs t) p = Some (abs s).
Proof.
  induction p as [|i q IH]; intros t s H; cbn [GpModel.sub_at] in H; [injection H as <-; reflexivity|].
  rewrite abs_eq. cbn [follow]. rewrite nth_error_map'. destruct (nth_error (args t) i) as [x|]; [|discriminate]. cbn [option_map]. auto.
Qed.
Lemma follow_sub_at : forall p t x, follow (abs t) p = Some x -> exists s, sub_at t p = Ok s /\ abs s = x.
Proof.
  induction p as [|i q IH]; intros t x H; cbn [GpModel.sub_at]; [injection H as <-; eauto|].
  rewrite abs_eq in H. cbn [follow] in H. rewrite nth_error_map' in H. destruct (nth_error (args t) i) as [y|]; [|discriminate]. cbn [option_map] in H. auto.
Qed.
Lemma sub_at_sound : forall p t s, sound arity t -> sub_at t p = Ok s -> sound arity s.
Proof.
  induction p as [|i q IH]; intros t s Ht H; cbn [GpModel.sub_at] in H; [now injection H as <-|].
  destruct (nth_error (args t) i) as [x|] eqn:E; [|discriminate]. apply sound_args in Ht. rewrite Forall_forall in Ht. eapply IH; [|exact H]. apply Ht. eapply nth_error_In; eauto.
Qed.
Lemma nth_node_spec t w : sound arity t -> w < size t ->
  exists s, nth_node t w = Ok s /\ sound arity s /\ nth_error (subtrees (abs t)) w = Some (abs s) /\ follow (abs t) (get_node t w) = Some (abs s).
Proof.
  intros Ht Hw. pose proof (get_node_ways t (proj1 Ht) w Hw) as Hg.
  assert (Hin : In (get_node t w) (ways (abs t))) by (eapply nth_error_In; eauto). apply in_ways in Hin.
  destruct (follow (abs t) (get_node t w)) as [x|] eqn:E; [|congruence]. destruct (follow_sub_at _ _ _ E) as (s & Hs & <-).
  exists s. split; auto. split; [eapply sub_at_sound; eauto|]. split; auto.
  assert (H := map_follow_subtrees (abs t)). apply (f_equal (fun l => nth_error l w)) in H. rewrite !nth_error_map', Hg in H. cbn [option_map] in H. rewrite E in H.
  destruct (nth_error (subtrees (abs t)) w); cbn in H; congruence.
Qed.

(** *** contexts and assignments *)
Lemma follow_ctx : forall p (t x : tree N), follow t p = Some x -> exists C, hole C = p /\ t = fill C x.
Proof.
  induction p as [|i q IH]; intros [n a] x H; cbn [follow] in H; [injection H as <-; exists Hole; auto|].
  destruct (nth_error a i) as [y|] eqn:E; [|discriminate]. destruct (IH _ _ H) as (C & Hh & Ey).
  destruct (nth_error_split _ _ E) as (b & r & -> & Hb). exists (In_arg n b C r). cbn. subst. auto.
Qed.
Lemma ctx_follow C (x : tree N) : follow (fill C x) (hole C) = Some x.
Proof. induction C as [|n b C IH a]; auto. cbn [fill hole follow]. now rewrite nth_error_app2, Nat.sub_diag by lia. Qed.
Lemma set_app {A} (b : list A) x y r : set (b ++ x :: r) (length b) y = b ++ y :: r.
Proof. induction b as [|z b IH]; cbn; auto. unfold set in *. cbn. now f_equal. Qed.
Lemma assign_spec : forall p t s x, sound arity t -> sound arity s -> follow (abs t) p = Some x ->
  exists u, assign N t p s = Ok u /\ sound arity u /\ forall C y, hole C = p -> abs t = fill C y -> abs u = fill C (abs s).
Proof.
  induction p as [|i q IH]; intros t s x Ht Hs H; cbn [assign].
  - rewrite refresh_same by apply Hs. exists s. split; auto. split; auto. intros [|n b C a] y HC E; [reflexivity|discriminate].
  - rewrite abs_eq in H. cbn [follow] in H. rewrite nth_error_map' in H. destruct (nth_error (args t) i) as [z|] eqn:E; [|discriminate]. cbn [option_map] in H.
    pose proof (sound_args _ Ht) as Ha. assert (Hz : sound arity z) by (rewrite Forall_forall in Ha; apply Ha; eapply nth_error_In; eauto).
    destruct (IH z s x Hz Hs H) as (u & -> & Hu & HC). cbn [rbind].
    destruct (nth_error_split _ _ E) as (b & r & Eb & Hb).
    eexists. split; [reflexivity|]. rewrite Eb, <- Hb, set_app. split.
    + apply sound_refresh; [|rewrite <- sound_arity by auto; rewrite Eb, !app_length; reflexivity].
      rewrite Eb in Ha. rewrite Forall_app in Ha |- *. destruct Ha as [A1 A2]. split; auto. inversion A2; subst. constructor; auto.
    + intros C y HCp Et. destruct C as [|n b' C a']; [discriminate|]. cbn [hole] in HCp. injection HCp as Hl Hq.
      rewrite refresh_abs. rewrite abs_eq in Et. cbn [fill] in Et. rewrite Eb, map_app in Et. cbn [map] in Et. injection Et as En El.
      assert (El' := El). apply app_eq_app in El' as [l [[E1 E2]|[E1 E2]]].
      * assert (l = []). { apply (f_equal (@length _)) in E1. rewrite app_length, map_length in E1. destruct l; auto. cbn in E1. lia. } subst l.
        cbn in E2. rewrite app_nil_r in E1. injection E2 as E3 E4. rewrite map_app. cbn [map fill]. rewrite E1, En, E4.
        rewrite (HC C y Hq (eq_sym E3)). reflexivity.
      * assert (l = []). { apply (f_equal (@length _)) in E1. rewrite app_length, map_length in E1. destruct l; auto. cbn in E1. lia. } subst l.
        cbn in E2. rewrite app_nil_r in E1. injection E2 as E3 E4. rewrite map_app. cbn [map fill]. rewrite <- E1, En, E4.
        rewrite (HC C y Hq E3). reflexivity.
Qed.
End Gp.
