From Coq Require Import List Arith Bool Lia.
From Verif Require Import Lib Outcome GpModel GpSpec GpProofs GpOps GpBuild.
From Coq Require Import List.
Import ListNotations.
Open Scope nat_scope.

Section Gp.
Context {N : Type}.
Variable arity : N -> nat.
Notation subtree := (subtree N).
Notation size := (size N).
Notation cumul := (cumul N).
Notation args := (args N).
Notation content := (content N).
Notation refresh := (refresh N).
Notation sub_at := (sub_at N).
Notation Sub := (Sub N).
Notation select_cumulative := (select_cumulative N).

(** *** selection by cumulative size *)
Fixpoint sc_loop (l : list subtree) (i w : nat) : list nat + nat :=
  match l with
  | [] => inr w
  | x :: r => match sc_loop r (S i) w with
              | inl p => inl p
              | inr w' => if w' <? cumul x then inl (i :: select_cumulative x w') else inr (w' - cumul x)
              end
  end.
Lemma select_eq c a s d m w : select_cumulative (Sub c a s d m) w = if m - s <=? w then [] else match sc_loop a 0 w with inl p => p | inr _ => [] end.
Proof.
  cbn [GpModel.select_cumulative]. destruct (m - s <=? w); auto.
  match goal with |- match ?f a 0 with inl p => p | inr _ => [] end = _ => assert (E : forall i, f a i = sc_loop a i w) end.
  { induction a as [|x r IH]; intros i; auto. cbn [sc_loop]. now rewrite IH. }
  now rewrite E.
Qed.
Lemma by_size_eq (n : N) a : by_size (Tree n a) = concat (rev (map by_size a)) ++ repeat (Tree n a) (count (Tree n a)).
Proof. reflexivity. Qed.
Lemma total_eq (n : N) a : total (Tree n a) = list_sum (map total a) + count (Tree n a).
Proof. reflexivity. Qed.
Lemma by_size_length (t : tree N) : length (by_size t) = total t.
Proof.
  induction t as [n a IH] using tree_ind'. rewrite by_size_eq, total_eq, app_length, repeat_length. f_equal.
  induction IH as [|x r Hx _ IHr]; auto. cbn [map]. rewrite concat_rev_cons, app_length, IHr, Hx.
  change (list_sum (total x :: map total r)) with (total x + list_sum (map total r)). lia.
Qed.
Lemma stats_cumul t : true_stats t -> cumul t = total (abs t).
Proof. now inversion 1. Qed.
Lemma select_spec : forall t, true_stats t -> forall w, w < cumul t ->
  exists x, follow (abs t) (select_cumulative t w) = Some x /\ nth_error (by_size (abs t)) w = Some x.
Proof.
  induction t as [c a s d m IH] using sub_ind. intros Ht w Hw.
  assert (HC := stats_cumul _ Ht). assert (HS := stats_size _ Ht). cbn [GpModel.cumul GpModel.size] in Hw, HC, HS. rewrite select_eq.
  change (abs (Sub c a s d m)) with (Tree c (map abs a)) in *. rewrite total_eq in HC.
  apply stats_args in Ht. cbn [GpModel.args] in Ht.
  assert (Hbl : length (concat (rev (map by_size (map abs a)))) = list_sum (map total (map abs a))).
  { clear. induction a as [|y l IHl]; auto. cbn [map]. rewrite concat_rev_cons, app_length, IHl, by_size_length.
    change (list_sum (total (abs y) :: map total (map abs l))) with (total (abs y) + list_sum (map total (map abs l))). lia. }
  rewrite by_size_eq. destruct (m - s <=? w) eqn:E; [apply Nat.leb_le in E|apply Nat.leb_gt in E].
  - eexists. split; [reflexivity|]. rewrite nth_error_app2 by lia. apply nth_error_repeat. lia.
  - rewrite nth_error_app1 by lia.
    assert (HL : forall l i, (exists b, a = b ++ l /\ length b = i) ->
        (w < list_sum (map total (map abs l)) -> exists p x, sc_loop l i w = inl p /\ follow (Tree c (map abs a)) p = Some x /\ nth_error (concat (rev (map by_size (map abs l)))) w = Some x) /\
        (list_sum (map total (map abs l)) <= w -> sc_loop l i w = inr (w - list_sum (map total (map abs l))))).
    { induction l as [|x r IHr]; intros i (b & Ea & Hb).
      - cbn. split; intros; [lia|f_equal; lia].
      - cbn [sc_loop map]. change (list_sum (total (abs x) :: map total (map abs r))) with (total (abs x) + list_sum (map total (map abs r))).
        destruct (IHr (S i)) as [I1 I2]; [exists (b ++ [x]); rewrite <- app_assoc, app_length; cbn; split; auto; lia|].
        assert (Hin : In x a) by (rewrite Ea; apply in_app_iff; right; now left).
        assert (Hsx : true_stats x) by (rewrite Forall_forall in Ht; auto). rewrite Forall_forall in IH. specialize (IH x Hin Hsx).
        rewrite concat_rev_cons. rewrite (stats_cumul _ Hsx) in *.
        assert (Hrl : length (concat (rev (map by_size (map abs r)))) = list_sum (map total (map abs r))).
        { clear. induction r as [|y l IHl]; auto. cbn [map]. rewrite concat_rev_cons, app_length, IHl, by_size_length.
          change (list_sum (total (abs y) :: map total (map abs l))) with (total (abs y) + list_sum (map total (map abs l))). lia. }
        set (sr := list_sum (map total (map abs r))) in *.
        destruct (Nat.lt_ge_cases w sr) as [L|G].
        + destruct (I1 L) as (p & y & -> & Hp & Hy). split; intros; [|lia]. exists p, y. split; auto. split; auto. rewrite nth_error_app1; auto. lia.
        + rewrite (I2 G). destruct (w - sr <? total (abs x)) eqn:E2; [apply Nat.ltb_lt in E2|apply Nat.ltb_ge in E2].
          * split; intros; [|lia]. destruct (IH (w - sr) E2) as (y & Hy1 & Hy2). exists (i :: select_cumulative x (w - sr)), y. split; auto. split.
            -- cbn [follow]. rewrite nth_error_map', Ea, nth_error_app2, Hb, Nat.sub_diag by lia. exact Hy1.
            -- rewrite nth_error_app2 by lia. now rewrite Hrl.
          * split; intros; [lia|]. f_equal. lia. }
    destruct (HL a 0) as [H1 _]; [exists []; auto|]. destruct H1 as (p & x & -> & Hp & Hx); [lia|]. eauto.
Qed.

(** *** filling a tree with push_back *)
Variable dflt : N.
Notation push_back := (push_back N arity dflt).
Notation push_all := (push_all N arity dflt).
(** the finished trees, last first *)
Definition view (st : subtree * list subtree) : list subtree := if size (fst st) =? 0 then snd st else fst st :: snd st.
Fixpoint fill_args (k i : nat) (root : subtree) (pushed : list subtree) : res (subtree * list subtree) :=
  match k with
  | 0 => Ok (root, pushed)
  | S k' => match pushed with [] => UB | s :: r => let! root' := assign N root [i] s in fill_args k' (S i) root' r end
  end.
Lemma push_eq st n : push_back st n = fill_args (arity n) 0 (set_node N arity dflt n (fst st)) (view st).
Proof.
  destruct st as [root pushed]. unfold GpModel.push_back, view. cbn [fst snd]. set (v := if size root =? 0 then pushed else root :: pushed). clearbody v.
  reflexivity.
Qed.
Lemma fill_spec n l : Forall true_stats l -> forall done k rest old root, length l = k -> length old = k -> root = refresh n (done ++ old) ->
  fill_args k (length done) root (l ++ rest) = Ok (refresh n (done ++ l), rest).
Proof.
  induction 1 as [|x l Hx _ IH]; intros done k rest old root Hl Ho ->; cbn in Hl; subst k.
  - destruct old; [|discriminate]. reflexivity.
  - destruct old as [|o old]; [discriminate|]. cbn [fill_args app length assign]. unfold GpModel.refresh at 1. cbn [GpModel.args].
    rewrite nth_error_app2, Nat.sub_diag by lia. cbn [nth_error rbind]. rewrite (refresh_same x Hx).
    change (content (refresh n (done ++ o :: old))) with n. change (args (refresh n (done ++ o :: old))) with (done ++ o :: old). rewrite set_app.
    replace (done ++ x :: old) with ((done ++ [x]) ++ old) by now rewrite <- app_assoc.
    replace (S (length done)) with (length (done ++ [x])) by (rewrite app_length; cbn; lia).
    rewrite (IH (done ++ [x]) (length l) rest old _ eq_refl); auto. now rewrite <- app_assoc.
Qed.
Lemma push_all_app l1 : forall st l2, push_all st (l1 ++ l2) = let! st' := push_all st l1 in push_all st' l2.
Proof. induction l1 as [|n l1 IH]; intros st l2; cbn [app GpModel.push_all]; auto. destruct (push_back st n) as [st'| | |]; cbn [rbind]; auto. Qed.
Definition plain (t : subtree) : Prop := length (args t) = arity (content t).
Lemma sound_plain t : sound arity t -> plain t.
Proof. apply sound_arity. Qed.
Lemma push_tree : forall t, sound arity t -> forall st, plain (fst st) -> push_all st (postfix (abs t)) = Ok (t, view st).
Proof.
  induction t as [c a s d m IH] using sub_ind. intros Ht st Hp.
  pose proof (sound_args arity _ Ht) as Ha. pose proof (sound_arity arity _ Ht) as Hl. cbn [GpModel.args GpModel.content] in Ha, Hl.
  change (abs (Sub c a s d m)) with (Tree c (map abs a)). cbn [postfix]. rewrite push_all_app.
  assert (HA : exists st', push_all st (concat (rev (map postfix (map abs a)))) = Ok st' /\ plain (fst st') /\ view st' = a ++ view st).
  { clear Hl Ht. induction IH as [|x r Hx _ IHr]; [exists st; auto|]. inversion_clear Ha as [|? ? Hsx Hsr]. cbn [map]. rewrite concat_rev_cons, push_all_app.
    destruct (IHr Hsr) as (st1 & -> & P1 & V1). cbn [rbind]. rewrite (Hx Hsx st1 P1). eexists. split; [reflexivity|]. cbn [fst]. split; [now apply sound_plain|].
    unfold view at 1. cbn [fst snd]. pose proof (size_pos arity x Hsx). destruct (size x =? 0) eqn:E; [apply Nat.eqb_eq in E; lia|]. now rewrite V1. }
  destruct HA as (st' & -> & P' & V'). cbn [rbind GpModel.push_all]. rewrite push_eq, V'.
  assert (E : exists old, set_node N arity dflt c (fst st') = refresh c old /\ length old = arity c).
  { unfold set_node. destruct (arity c =? arity (content (fst st'))) eqn:E; [apply Nat.eqb_eq in E|]; eexists; split; try reflexivity; [now rewrite P'|apply repeat_length]. }
  destruct E as (old & -> & Ho).
  pose proof (fill_spec c a) as F. specialize (F ltac:(eapply Forall_impl; [|exact Ha]; intros ? [? _]; auto) [] (arity c) (view st) old (refresh c old) Hl Ho eq_refl).
  cbn [length app] in F. rewrite F. cbn [rbind]. f_equal. f_equal. apply (refresh_same (Sub c a s d m)). apply Ht.
Qed.
Lemma refill t : arity dflt = 0 -> sound arity t -> push_all (cleared N dflt) (postfix (abs t)) = Ok (t, []).
Proof. intros H0 Ht. rewrite push_tree; auto. red. cbn. now rewrite H0. Qed.
Lemma refill_fresh t : arity dflt = 0 -> sound arity t -> push_all (fresh N dflt) (postfix (abs t)) = Ok (t, [Sub dflt [] 1 0 0]).
Proof. intros H0 Ht. rewrite push_tree; auto. red. cbn. now rewrite H0. Qed.
End Gp.
