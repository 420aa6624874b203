(** Proofs about the quad tree, continued: reconsider, remove, test1, test2, insert_aux. *)
From Coq Require Import List Bool Arith QArith ZArith Lia Lqa Permutation.
From Verif Require Import Lib Outcome BoundsModel BoundsProofs ParetoModel ParetoSpec ParetoProofs ArchSpec ArchProofs QdModel QdSpec QdQuad.
From Coq Require Import List.
Import ListNotations.
Close Scope Q_scope.

Section Tree.
Variable dirs : list bool.
Hypothesis dirs_some : dirs <> [].
Notation n := (length dirs).
Notation ksucc := (k_succ 0 0 dirs).
Notation wd := (weakly_dominates dirs).
Notation dm := (dominates dirs).
Notation size t := (length (content t)).
Notation P := (QdQuad.P dirs).
Notation ok := (QdQuad.ok dirs).
Notation inc := (QdQuad.inc dirs).
Notation apart := (QdQuad.apart dirs).
Notation reinsert := (QdModel.reinsert 0 0 dirs).
Notation reconsider := (QdModel.reconsider 0 0 dirs).

Lemma ok_vec t : ok t -> P (vec_of t).
Proof. intros H. apply (ok_all dirs t H). rewrite content_eq. left. reflexivity. Qed.
Lemma ok_sub t k c : ok t -> In (k, c) (subs_of t) -> ok c /\ zero_key k = false /\ full_key k = false /\ forall u, In u (content c) -> ksucc u (vec_of t) = k.
Proof. intros H. inversion H as [v i m Pv ND Hm]; subst. cbn [subs_of vec_of]. apply Hm. Qed.
Lemma ok_nodup t : ok t -> NoDup (map fst (subs_of t)).
Proof. intros H. inversion H; subst. assumption. Qed.
Lemma dm_split u w : P u -> P w -> wd u w -> dm u w \/ wd w u.
Proof.
  intros Hu Hw W. destruct (pareto 0 dirs w u) eqn:E; [left; apply dom_dec in E; assumption|]. right. intros i d y x (O1 & O2 & O3) B.
  assert (D : dm u w). { split; [exact W|]. exists i, d, x, y. split; [split; [exact O1|split; assumption]|exact B]. }
  apply dom_dec in D; [congruence|assumption|assumption].
Qed.
Lemma key_inc u v : P u -> P v -> zero_key (ksucc u v) = false -> full_key (ksucc u v) = false -> inc u v.
Proof.
  intros Hu Hv Z F. assert (G : ~ wd v u) by (intros W; apply (full_ok dirs dirs_some u v Hu Hv) in W; congruence). split; [|exact G].
  intros W. destruct (dm_split u v Hu Hv W) as [D|D]; [|contradiction]. apply (zero_ok dirs dirs_some u v Hu Hv) in D. congruence.
Qed.
Lemma ok_inc t u : ok t -> In u (contents (subs_of t)) -> inc u (vec_of t).
Proof.
  intros H Hu. apply in_contents in Hu as (k & c & Hc & Hu). destruct (ok_sub t k c H Hc) as (Oc & Z & F & K). specialize (K u Hu).
  apply key_inc; [exact (ok_all dirs c Oc u Hu)|exact (ok_vec t H)| |]; rewrite K; assumption.
Qed.
Lemma apart_sub m k c : In (k, c) m -> apart (contents m) -> apart (content c).
Proof.
  intros Ic A. induction m as [|[k' c'] m IHm]; [contradiction|]. cbn [contents flat_map snd] in A. fold (contents m) in A.
  destruct Ic as [E|Ic]; [inversion E; subst; exact (apart_l dirs _ _ A)|exact (IHm Ic (apart_r dirs _ _ A))].
Qed.
Lemma size_eq t : size t = S (length (contents (subs_of t))).
Proof. rewrite content_eq. reflexivity. Qed.
(** a single vector under a node *)
Definition place (fuel : nat) (t : tree) (x : tree) : res tree :=
  let succ := ksucc (vec_of x) (vec_of t) in
  match get succ (subs_of t) with
  | Some c => let! c := reinsert fuel c (childless x) in Ok (with_child t succ c)
  | None => Ok (with_child t succ (childless x))
  end.
Lemma place_ok fuel t x : size t <= fuel -> ok t -> P (vec_of x) -> inc (vec_of x) (vec_of t) -> apart (vec_of x :: contents (subs_of t)) ->
  exists t', place fuel t x = Ok t' /\ ok t' /\ vec_of t' = vec_of t /\ Permutation (contents (subs_of t')) (vec_of x :: contents (subs_of t)).
Proof.
  intros Hs Ot Px I A. unfold place. destruct (inc_key dirs dirs_some (vec_of x) (vec_of t) Px (ok_vec t Ot) I) as [Z F].
  assert (Fin : forall t', vec_of t' = vec_of t -> Permutation (content t') (content t ++ [vec_of x]) -> Permutation (contents (subs_of t')) (vec_of x :: contents (subs_of t))).
  { intros t' V H. rewrite !content_eq, V in H. cbn [app] in H. apply Permutation_cons_inv in H. rewrite H. symmetry. apply Permutation_cons_append. }
  destruct (get (ksucc (vec_of x) (vec_of t)) (subs_of t)) as [c|] eqn:G.
  - assert (Ic := get_some _ _ _ G). destruct (ok_sub t _ c Ot Ic) as (Oc & _). inversion A as [|? ? Fa A']; subst. assert (Sc := sub_size _ _ _ Ic). rewrite size_eq in Hs.
    destruct (reinsert_ok dirs dirs_some fuel c (childless x)) as (c' & E & Oc' & Vc' & Pc').
    + cbn [content childless flat_map length]. lia.
    + exact Oc.
    + cbn. intros u [<-|[]]. exact Px.
    + cbn [content childless flat_map]. apply (apart_perm dirs (vec_of x :: content c)); [apply Permutation_cons_append|]. constructor; [|exact (apart_sub _ _ _ Ic A')].
      rewrite Forall_forall in *. intros w Hw. apply Fa. apply in_contents. eauto.
    + rewrite E. cbn [rbind]. cbn [content childless flat_map] in Pc'. destruct (new_sub dirs t _ c c' [vec_of x] Ot G Oc' Pc') as (R1 & R2 & R3); [intros u [<-|[]]; reflexivity|].
      eexists. split; [reflexivity|]. split; [exact R1|]. split; [exact R2|]. apply Fin; assumption.
  - destruct (new_child dirs t _ (childless x) Ot G (childless_ok dirs x Px) Z F) as (R1 & R2 & R3); [cbn; intros u [<-|[]]; reflexivity|].
    eexists. split; [reflexivity|]. split; [exact R1|]. split; [exact R2|]. apply Fin; assumption.
Qed.
(** ** reconsider *)
Definition reconsidered (root : tree) (del : list deletion) (cs : list (list Q)) (r : res (tree * list deletion)) : Prop :=
  exists root' del', r = Ok (root', del ++ del') /\ ok root' /\ vec_of root' = vec_of root /\
    Permutation (contents (subs_of root') ++ map fst del') (contents (subs_of root) ++ cs) /\ forall d, In d del' -> wd (vec_of root) (fst d).
Lemma reconsider_fold fuel
  (IH : forall root del child, size root + size child <= fuel -> ok root -> (forall u, In u (content child) -> P u) -> apart (contents (subs_of root) ++ content child) ->
    (forall u, In u (content child) -> ~ wd u (vec_of root)) -> reconsidered root del (content child) (reconsider fuel (root, del) child)) :
  forall m root del, size root + length (contents m) <= fuel -> ok root -> (forall u, In u (contents m) -> P u) -> apart (contents (subs_of root) ++ contents m) ->
    (forall u, In u (contents m) -> ~ wd u (vec_of root)) -> reconsidered root del (contents m) (fold_res (fun acc kc => reconsider fuel acc (snd kc)) m (root, del)).
Proof.
  induction m as [|[k c] m IHm]; intros root del Hs Or Pm A W; cbn [fold_res].
  - exists root, []. rewrite app_nil_r. split; [reflexivity|]. split; [exact Or|]. split; [reflexivity|]. split; [reflexivity|]. intros d [].
  - cbn [contents flat_map snd] in *. fold (contents m) in *. rewrite app_length in Hs.
    destruct (IH root del c) as (r1 & d1 & E & O1 & V1 & P1 & D1); [lia|exact Or|intros u Hu; apply Pm; apply in_or_app; left; exact Hu|rewrite app_assoc in A; exact (apart_l dirs _ _ A)|intros u Hu; apply W; apply in_or_app; left; exact Hu|].
    rewrite E. cbn [rbind]. assert (L1 := Permutation_length P1). rewrite !app_length in L1. rewrite (size_eq root) in Hs.
    destruct (IHm r1 (del ++ d1)) as (r2 & d2 & E2 & O2 & V2 & P2 & D2); [rewrite size_eq; lia|exact O1|intros u Hu; apply Pm; apply in_or_app; right; exact Hu| |rewrite V1; intros u Hu; apply W; apply in_or_app; right; exact Hu|].
    + apply (apart_r dirs (map fst d1)). eapply apart_perm; [|exact A]. rewrite (app_assoc (contents (subs_of root))), <- P1, <- app_assoc, (app_assoc (contents (subs_of r1))), (Permutation_app_comm (contents (subs_of r1))). rewrite <- app_assoc. reflexivity.
    + exists r2, (d1 ++ d2). split; [rewrite app_assoc; exact E2|]. split; [exact O2|]. split; [congruence|]. split.
      * rewrite map_app. rewrite (Permutation_app_comm (map fst d1)), app_assoc, P2. rewrite <- app_assoc, (Permutation_app_comm (contents m)), app_assoc, P1, <- app_assoc. reflexivity.
      * intros d Hd. apply in_app_or in Hd as [Hd|Hd]; [exact (D1 d Hd)|]. rewrite <- V1. exact (D2 d Hd).
Qed.
Lemma reconsider_ok : forall fuel root del child, size root + size child <= fuel -> ok root -> (forall u, In u (content child) -> P u) -> apart (contents (subs_of root) ++ content child) ->
  (forall u, In u (content child) -> ~ wd u (vec_of root)) -> reconsidered root del (content child) (reconsider fuel (root, del) child).
Proof.
  induction fuel as [|fuel IH]; intros root del child Hs Or Pc A W; [rewrite (size_eq root) in Hs; lia|]. cbn [QdModel.reconsider]. rewrite (size_eq child) in Hs. rewrite content_eq in Pc, A, W.
  assert (A0 : apart (vec_of child :: contents (subs_of root) ++ contents (subs_of child))) by (eapply apart_perm; [|exact A]; symmetry; apply Permutation_middle). inversion A0 as [|? ? Fa A1]; subst. rewrite Forall_forall in Fa.
  destruct (reconsider_fold fuel IH (subs_of child) root del) as (r & d & E & O1 & V1 & P1 & D1); [lia|exact Or|intros u Hu; apply Pc; right; exact Hu|exact A1|intros u Hu; apply W; right; exact Hu|].
  rewrite E. cbn [rbind]. assert (Px : P (vec_of child)) by (apply Pc; left; reflexivity). assert (Pr := ok_vec r O1). rewrite V1 in Pr.
  rewrite (content_eq child). destruct (full_key (ksucc (vec_of child) (vec_of r))) eqn:F.
  - exists r, (d ++ [(vec_of child, idx_of child)]). split; [rewrite app_assoc; reflexivity|]. split; [exact O1|]. split; [exact V1|]. split.
    + rewrite map_app. cbn [map fst]. rewrite app_assoc, P1, <- app_assoc, <- Permutation_cons_append. reflexivity.
    + intros x Hx. apply in_app_or in Hx as [Hx|[<-|[]]]; [exact (D1 x Hx)|]. cbn [fst]. rewrite V1 in F. apply (full_ok dirs dirs_some); assumption.
  - assert (Z : zero_key (ksucc (vec_of child) (vec_of root)) = false).
    { destruct (zero_key (ksucc (vec_of child) (vec_of root))) eqn:Z; [|reflexivity]. apply (zero_ok dirs dirs_some) in Z; [|assumption|assumption]. destruct (W (vec_of child) (or_introl eq_refl) (dm_wd dirs _ _ Z)). }
    destruct (place_ok fuel r child) as (r' & E' & O' & V' & P'); [| exact O1 | exact Px | | |].
    + assert (L1 := Permutation_length P1). rewrite !app_length in L1. rewrite (size_eq root) in Hs. rewrite size_eq. lia.
    + rewrite V1 in *. apply key_inc; assumption.
    + constructor.
      * rewrite Forall_forall. intros w Hw. apply Fa. apply (Permutation_in _ P1). apply in_or_app. left. exact Hw.
      * apply (apart_l dirs _ (map fst d)). exact (apart_perm dirs _ _ (Permutation_sym P1) A1).
    + exists r', d. split; [|split; [exact O'|split; [congruence|split; [|exact D1]]]].
      * unfold place in E'. destruct (get (ksucc (vec_of child) (vec_of r)) (subs_of r)); [|inversion E'; reflexivity].
        apply rbind_ok in E' as (c' & Ec & E'). rewrite Ec. cbn [rbind]. inversion E'; reflexivity.
      * rewrite P'. cbn [app]. rewrite P1. apply Permutation_middle.
Qed.
Lemma replace_ok fuel v i t del : size t <= fuel -> ok t -> apart (content t) -> P v -> dm v (vec_of t) ->
  exists new del', replace_node 0 0 dirs fuel (Node v i []) t del = Ok (new, del ++ del') /\ ok new /\ vec_of new = v /\
    Permutation (content new ++ map fst del') (v :: content t) /\ forall d, In d del' -> wd v (fst d).
Proof.
  intros Hs Ot A Pv D. unfold replace_node. rewrite size_eq in Hs. assert (Pt := ok_vec t Ot). rewrite (content_eq t) in A. inversion A as [|? ? Fa A']; subst. rewrite Forall_forall in Fa.
  assert (Pc : forall u, In u (contents (subs_of t)) -> P u) by (intros u Hu; apply (ok_all dirs t Ot); rewrite content_eq; right; exact Hu).
  destruct (reconsider_fold fuel (fun root del child => reconsider_ok fuel root del child) (subs_of t) (Node v i []) del) as (r & d & E & O1 & V1 & P1 & D1).
  - cbn [content flat_map length]. lia.
  - constructor; [exact Pv|constructor|intros k c []].
  - exact Pc.
  - exact A'.
  - cbn [vec_of]. intros u Hu Wu. destruct (Fa u Hu) as [_ H]. apply H. exact (wd_trans dirs _ _ _ (Pc u Hu) Pv Pt Wu (dm_wd dirs _ _ D)).
  - rewrite E. cbn [rbind]. exists r, (d ++ [(vec_of t, idx_of t)]). cbn [vec_of] in V1, D1. split; [rewrite app_assoc; reflexivity|]. split; [exact O1|]. split; [exact V1|]. split.
    + rewrite (content_eq r), (content_eq t), V1. cbn [app]. constructor. rewrite map_app. cbn [map fst]. cbn [subs_of contents flat_map app] in P1. rewrite app_assoc, P1. symmetry. apply Permutation_cons_append.
    + intros x Hx. apply in_app_or in Hx as [Hx|[<-|[]]]; [exact (D1 x Hx)|]. exact (dm_wd dirs _ _ D).
Qed.
(** ** remove *)
Lemma reinsert_fold fuel : forall m c, size c + length (contents m) <= fuel -> ok c -> (forall u, In u (contents m) -> P u) -> apart (content c ++ contents m) ->
  exists c', fold_res (fun c kc => reinsert fuel c (snd kc)) m c = Ok c' /\ ok c' /\ Permutation (content c') (content c ++ contents m).
Proof.
  induction m as [|[k x] m IH]; intros c Hs Oc Pm A; cbn [fold_res].
  - exists c. split; [reflexivity|]. split; [exact Oc|]. cbn [contents flat_map]. rewrite app_nil_r. reflexivity.
  - cbn [contents flat_map snd] in *. fold (contents m) in *. rewrite app_length in Hs.
    destruct (reinsert_ok dirs dirs_some fuel c x) as (c1 & E & O1 & _ & P1); [lia|exact Oc|intros u Hu; apply Pm; apply in_or_app; left; exact Hu|rewrite app_assoc in A; exact (apart_l dirs _ _ A)|].
    rewrite E. cbn [rbind]. destruct (IH c1) as (c2 & E2 & O2 & P2); [rewrite (Permutation_length P1), app_length; lia|exact O1|intros u Hu; apply Pm; apply in_or_app; right; exact Hu| |].
    + eapply apart_perm; [|exact A]. rewrite P1, <- app_assoc. reflexivity.
    + exists c2. split; [exact E2|]. split; [exact O2|]. rewrite P2, P1, <- app_assoc. reflexivity.
Qed.
Lemma contents_filter f m : Permutation (contents (filter f m) ++ contents (filter (fun x => negb (f x)) m)) (contents m).
Proof.
  induction m as [|[k c] m IH]; [reflexivity|]. cbn [filter]. destruct (f (k, c)); cbn [negb contents flat_map snd]; fold (contents m).
  - rewrite <- app_assoc. apply Permutation_app_head. exact IH.
  - rewrite app_assoc, (Permutation_app_comm (contents (filter f m)) (content c)), <- app_assoc. apply Permutation_app_head. exact IH.
Qed.
Definition kept (o : option tree) : list (list Q) := match o with Some t => content t | None => [] end.
Lemma remove_ok fuel t del : length (contents (subs_of t)) <= fuel -> ok t -> apart (content t) ->
  exists o lost, remove_node 0 0 dirs fuel t del = Ok (o, del ++ [(vec_of t, idx_of t)]) /\ (forall c, o = Some c -> ok c) /\ Permutation (kept o ++ lost) (contents (subs_of t)).
Proof.
  intros Hs Ot A. unfold remove_node. rewrite content_eq in A. inversion A as [|? ? _ A']; subst. set (m := subs_of t) in *.
  assert (All : filter (fun kc : key * tree => negb (zero_key (fst kc)) && negb (full_key (fst kc))) m = m).
  { assert (H : forall k c, In (k, c) m -> zero_key k = false /\ full_key k = false) by (intros k c H; destruct (ok_sub t k c Ot H) as (_ & Z & F & _); split; assumption). clear -H. induction m as [|[k c] m IH]; [reflexivity|].
    cbn [filter fst]. destruct (H k c (or_introl eq_refl)) as [-> ->]. cbn [negb andb]. f_equal. apply IH. intros k' c' Hc. exact (H k' c' (or_intror Hc)). }
  rewrite All. assert (Sub : forall k c, In (k, c) m -> ok c) by (intros k c H; exact (proj1 (ok_sub t k c Ot H))). clearbody m. destruct m as [|[k c] m].
  - exists None, []. split; [reflexivity|]. split; [discriminate|reflexivity].
  - set (f := fun kc : key * tree => negb (key_eqb (fst kc) (last_key n))). cbn [contents flat_map snd] in Hs, A'. fold (contents m) in Hs, A'. rewrite app_length in Hs.
    assert (Pf := contents_filter f m). assert (Lf := Permutation_length Pf). rewrite app_length in Lf.
    destruct (reinsert_fold fuel (filter f m) c) as (c' & E & Oc & Pc); [lia|exact (Sub k c (or_introl eq_refl))| | |].
    + intros u Hu. apply in_contents in Hu as (k' & x & Hx & Hu). apply filter_In in Hx as [Hx _]. exact (ok_all dirs x (Sub k' x (or_intror Hx)) u Hu).
    + apply (apart_l dirs _ (contents (filter (fun x => negb (f x)) m))). eapply apart_perm; [|exact A']. rewrite <- app_assoc, Pf. reflexivity.
    + rewrite E. cbn [rbind]. exists (Some c'), (contents (filter (fun x => negb (f x)) m)). split; [reflexivity|]. split; [intros x Hx; inversion Hx; subst; exact Oc|].
      cbn [kept]. rewrite Pc, <- app_assoc, Pf. reflexivity.
Qed.
(** ** test1 *)
Lemma test1_eq v t : test1 0 0 dirs v t = (if full_key (ksucc v (vec_of t)) then true
  else existsb (fun kc => key_eqb (key_and (key_not (ksucc v (vec_of t))) (key_not (fst kc))) (key_not (ksucc v (vec_of t))) && test1 0 0 dirs v (snd kc)) (subs_of t)).
Proof. destruct t; reflexivity. Qed.
Lemma key_not_len k : length (key_not k) = length k.
Proof. apply map_length. Qed.
Lemma key_P t k c : ok t -> In (k, c) (subs_of t) -> length k = n.
Proof.
  intros H Hc. destruct (ok_sub t k c H Hc) as (Oc & _ & _ & K). rewrite <- (K (vec_of c)) by (rewrite content_eq; left; reflexivity). apply ksucc_len; [exact (ok_vec c Oc)|exact (ok_vec t H)].
Qed.
Lemma below_ok t k c v : ok t -> In (k, c) (subs_of t) -> P v ->
  (key_eqb (key_and (key_not (ksucc v (vec_of t))) (key_not k)) (key_not (ksucc v (vec_of t))) = true <-> subkey k (ksucc v (vec_of t))).
Proof.
  intros H Hc Pv. assert (Lk := key_P t k c H Hc). rewrite subkey_and; [apply subkey_not|]. rewrite !key_not_len, ksucc_len; [lia|exact Pv|exact (ok_vec t H)].
Qed.
Lemma above_ok t k c v : ok t -> In (k, c) (subs_of t) -> P v -> (key_eqb (key_and (ksucc v (vec_of t)) k) (ksucc v (vec_of t)) = true <-> subkey (ksucc v (vec_of t)) k).
Proof. intros H Hc Pv. assert (Lk := key_P t k c H Hc). rewrite subkey_and; [reflexivity|]. rewrite ksucc_len; [lia|exact Pv|exact (ok_vec t H)]. Qed.
(** the members that weakly dominate v are under the node, when v does not dominate it, in the subtrees below the key *)
Lemma dominator_key t k c u v : ok t -> In (k, c) (subs_of t) -> In u (content c) -> P v -> zero_key (ksucc v (vec_of t)) = false -> wd u v -> subkey k (ksucc v (vec_of t)).
Proof.
  intros H Hc Hu Pv Z W. destruct (ok_sub t k c H Hc) as (Oc & Zk & _ & K). rewrite <- (K u Hu) in *. apply (keys_below dirs v u (vec_of t)); try assumption; [exact (ok_all dirs c Oc u Hu)|exact (ok_vec t H)].
Qed.
Lemma dominated_key t k c u v : ok t -> In (k, c) (subs_of t) -> In u (content c) -> P v -> zero_key (ksucc v (vec_of t)) = false -> wd v u -> subkey (ksucc v (vec_of t)) k.
Proof.
  intros H Hc Hu Pv Z W. destruct (ok_sub t k c H Hc) as (Oc & Zk & _ & K). rewrite <- (K u Hu) in *. apply (keys_below dirs u v (vec_of t)); try assumption; [exact (ok_all dirs c Oc u Hu)|exact (ok_vec t H)].
Qed.
Lemma test1_ok : forall f t v, size t <= f -> ok t -> apart (content t) -> P v -> (test1 0 0 dirs v t = true <-> exists u, In u (content t) /\ wd u v).
Proof.
  induction f as [|f IH]; intros t v Hs Ot A Pv; [rewrite size_eq in Hs; lia|]. rewrite test1_eq, content_eq. rewrite size_eq in Hs. assert (Pt := ok_vec t Ot).
  rewrite content_eq in A. inversion A as [|? ? Fa A']; subst. rewrite Forall_forall in Fa.
  destruct (full_key (ksucc v (vec_of t))) eqn:F.
  - split; [intros _|reflexivity]. exists (vec_of t). split; [left; reflexivity|]. apply (full_ok dirs dirs_some); assumption.
  - assert (NF : ~ wd (vec_of t) v) by (intros W; apply (full_ok dirs dirs_some v (vec_of t) Pv Pt) in W; congruence). rewrite existsb_exists. split.
    + intros ([k c] & Hc & E). cbn [fst snd] in E. apply andb_true_iff in E as [E1 E2]. destruct (ok_sub t k c Ot Hc) as (Oc & _). assert (Sc := sub_size _ _ _ Hc).
      apply (IH c v) in E2 as (u & Hu & W); [|lia|exact Oc|exact (apart_sub _ _ _ Hc A')|exact Pv]. exists u. split; [right; apply in_contents; eauto|exact W].
    + intros (u & [<-|Hu] & W); [contradiction|]. assert (Hu0 := Hu). apply in_contents in Hu as (k & c & Hc & Hu). exists (k, c). split; [exact Hc|]. cbn [fst snd]. apply andb_true_iff.
      destruct (ok_sub t k c Ot Hc) as (Oc & _). split.
      * apply (below_ok t k c v Ot Hc Pv). apply (dominator_key t k c u v Ot Hc Hu Pv); [|exact W]. destruct (zero_key (ksucc v (vec_of t))) eqn:Z; [|reflexivity]. exfalso.
        apply (zero_ok dirs dirs_some) in Z; [|assumption|assumption]. destruct (Fa u Hu0) as [_ H]. apply H. exact (wd_trans dirs _ _ _ (ok_all dirs c Oc u Hu) Pv Pt W (dm_wd dirs _ _ Z)).
      * assert (Sc := sub_size _ _ _ Hc). apply (IH c v); [lia|exact Oc|exact (apart_sub _ _ _ Hc A')|exact Pv|]. exists u. split; assumption.
Qed.
(** ** test2 *)
(** what a pass over a tree has done *)
Definition cleaned (v : list Q) (before after : list (list Q)) (del' : list deletion) (lost : list (list Q)) : Prop :=
  Permutation (after ++ map fst del' ++ lost) before /\ (forall u, In u after -> ~ wd v u) /\ (forall d, In d del' -> wd v (fst d)) /\
  ((forall u, In u before -> ~ wd v u) -> del' = [] /\ lost = []).
Lemma interleave {A} (a b c d e f : list A) : Permutation ((a ++ d) ++ (b ++ e) ++ c ++ f) ((a ++ b ++ c) ++ d ++ e ++ f).
Proof.
  rewrite <- !app_assoc. apply Permutation_app_head. rewrite (app_assoc b), (app_assoc d). rewrite (Permutation_app_comm d (b ++ e)), <- !app_assoc. apply Permutation_app_head.
  rewrite !app_assoc. apply Permutation_app_tail. rewrite (Permutation_app_comm e d), (Permutation_app_comm (d ++ e) c), app_assoc. reflexivity.
Qed.
Lemma visit_ok step cond v :
  forall m del,
  (forall k c del, In (k, c) m -> cond k = true -> exists o del' lost, step c del = Ok (o, del ++ del') /\ (forall c', o = Some c' -> ok c') /\ cleaned v (content c) (kept o) del' lost) ->
  (forall k c, In (k, c) m -> ok c) ->
  exists m' del' lost, visit step cond m del = Ok (m', del ++ del') /\ Permutation (contents m' ++ map fst del' ++ lost) (contents m) /\
    (forall d, In d del' -> wd v (fst d)) /\
    incl (map fst m') (map fst m) /\ (NoDup (map fst m) -> NoDup (map fst m')) /\
    (forall k c', In (k, c') m' -> ok c' /\ exists c, In (k, c) m /\ incl (content c') (content c) /\ (if cond k then forall u, In u (content c') -> ~ wd v u else c' = c)) /\
    (forall k c, In (k, c) m -> cond k = false -> In (k, c) m') /\
    ((forall k c, In (k, c) m -> cond k = true -> forall u, In u (content c) -> ~ wd v u) -> del' = [] /\ lost = []).
Proof.
  induction m as [|[k c] m IH]; intros del Hs Ho; cbn [visit].
  - exists [], [], []. rewrite app_nil_r. split; [reflexivity|]. split; [reflexivity|]. split; [intros d []|]. split; [intros x []|]. split; [auto|]. split; [intros k c []|]. split; [intros k c []|]. intros _. split; reflexivity.
  - assert (IH' := fun del => IH del (fun k c del H => Hs k c del (or_intror H)) (fun k c H => Ho k c (or_intror H))). clear IH. destruct (cond k) eqn:C.
    + destruct (Hs k c del (or_introl eq_refl) C) as (o & d1 & l1 & E1 & O1 & Pm1 & K1 & D1 & N1). rewrite E1. cbn [rbind].
      destruct (IH' (del ++ d1)) as (m' & d2 & l2 & E2 & Pm2 & D2 & I2 & ND2 & R2 & U2 & N2). rewrite E2. cbn [rbind].
      eexists. exists (d1 ++ d2), (l1 ++ l2). split; [rewrite app_assoc; reflexivity|]. split; [|split; [|split; [|split; [|split; [|split]]]]].
      * assert (Ec : contents (match o with Some c0 => (k, c0) :: m' | None => m' end) = kept o ++ contents m') by (destruct o; reflexivity). rewrite Ec. cbn [contents flat_map snd]. fold (contents m).
        rewrite <- Pm1, <- Pm2, map_app. apply interleave.
      * intros d Hd. apply in_app_or in Hd as [Hd|Hd]; [exact (D1 d Hd)|exact (D2 d Hd)].
      * intros x Hx. cbn [map fst]. destruct o; cbn [map fst] in Hx; [destruct Hx as [Hx|Hx]; [left; exact Hx|]|]; right; exact (I2 x Hx).
      * cbn [map fst]. intros ND. inversion ND as [|? ? Nk ND']; subst. destruct o; cbn [map fst]; [constructor; [intros H; apply Nk; exact (I2 _ H)|]|]; exact (ND2 ND').
      * intros k' c' H. assert (H' : (o = Some c' /\ k' = k) \/ In (k', c') m'). { destruct o as [x|]; [destruct H as [H|H]; [inversion H; subst; left; split; reflexivity|right; exact H]|right; exact H]. }
        destruct H' as [[-> ->]|H']; [|destruct (R2 _ _ H') as (R & x & Hx & Hi); split; [exact R|exists x; split; [right; exact Hx|exact Hi]]].
        split; [exact (O1 c' eq_refl)|]. exists c. split; [left; reflexivity|]. rewrite C. split; [|exact K1]. intros u Hu. apply (Permutation_in _ Pm1). apply in_or_app. left. exact Hu.
      * intros k' c' [H|H] C'; [inversion H; subst; congruence|]. destruct o; [right|]; exact (U2 k' c' H C').
      * intros H. destruct (N1 (H k c (or_introl eq_refl) C)) as [-> ->]. destruct N2 as [-> ->]; [|split; reflexivity]. intros k' c' H'. exact (H k' c' (or_intror H')).
    + destruct (IH' del) as (m' & d2 & l2 & E2 & Pm2 & D2 & I2 & ND2 & R2 & U2 & N2). rewrite E2. cbn [rbind]. exists ((k, c) :: m'), d2, l2. split; [reflexivity|]. split; [|split; [|split; [|split; [|split; [|split]]]]].
      * cbn [contents flat_map snd]. fold (contents m'). fold (contents m). rewrite <- app_assoc. apply Permutation_app_head. exact Pm2.
      * exact D2.
      * cbn [map fst]. intros x [<-|Hx]; [left; reflexivity|right; exact (I2 x Hx)].
      * cbn [map fst]. intros ND. inversion ND as [|? ? Nk ND']; subst. constructor; [intros H; apply Nk; exact (I2 _ H)|exact (ND2 ND')].
      * intros k' c' [H|H]; [inversion H; subst; split; [exact (Ho k' c' (or_introl eq_refl))|exists c'; split; [left; reflexivity|split; [intros u Hu; exact Hu|rewrite C; reflexivity]]]|].
        destruct (R2 _ _ H) as (R & x & Hx & Hi). split; [exact R|exists x; split; [right; exact Hx|exact Hi]].
      * intros k' c' [H|H] C'; [left; exact H|right; exact (U2 k' c' H C')].
      * intros H. apply N2. intros k' c' H'. exact (H k' c' (or_intror H')).
Qed.
Lemma not_wd u v : P u -> P v -> ~ wd u v -> ~ dm v u -> ~ wd v u.
Proof. intros Hu Hv H D W. destruct (dm_split v u Hv Hu W); contradiction. Qed.
(** the node with its visited children *)
Lemma visited_ok t m' : ok t -> NoDup (map fst m') -> (forall k c', In (k, c') m' -> ok c' /\ exists c, In (k, c) (subs_of t) /\ incl (content c') (content c)) -> ok (Node (vec_of t) (idx_of t) m').
Proof.
  intros Ot ND R. constructor; [exact (ok_vec t Ot)|exact ND|]. intros k c' H. destruct (R k c' H) as (Oc & c & Hc & Hi). destruct (ok_sub t k c Ot Hc) as (_ & Z & F & K).
  split; [exact Oc|]. split; [exact Z|]. split; [exact F|]. intros u Hu. apply K. exact (Hi u Hu).
Qed.
Lemma test2_ok : forall fuel v t del, size t <= fuel -> ok t -> apart (content t) -> P v -> (forall u, In u (content t) -> ~ wd u v) ->
  exists o del' lost, test2 0 0 dirs fuel v t del = Ok (o, del ++ del') /\ (forall c', o = Some c' -> ok c') /\ cleaned v (content t) (kept o) del' lost.
Proof.
  induction fuel as [|fuel IH]; intros v t del Hs Ot A Pv N; [rewrite size_eq in Hs; lia|]. cbn [test2]. assert (Pt := ok_vec t Ot). rewrite size_eq in Hs.
  assert (A0 := A). rewrite content_eq in A0. inversion A0 as [|? ? Fa A']; subst. destruct (zero_key (ksucc v (vec_of t))) eqn:Z.
  - assert (D := proj1 (zero_ok dirs dirs_some v (vec_of t) Pv Pt) Z). destruct (remove_ok fuel t del) as (o & lost & E & Oc & Pm); [lia|exact Ot|exact A|]. rewrite E. cbn [rbind]. destruct o as [c|].
    + cbn [kept] in Pm. assert (Lc := Permutation_length Pm). rewrite app_length in Lc.
      destruct (IH v c (del ++ [(vec_of t, idx_of t)])) as (o' & d' & l' & E' & O' & Pm' & K' & D' & _); [lia|exact (Oc c eq_refl)| |exact Pv| |].
      * apply (apart_l dirs _ lost). exact (apart_perm dirs _ _ (Permutation_sym Pm) A').
      * intros u Hu. apply N. rewrite content_eq. right. apply (Permutation_in _ Pm). apply in_or_app. left. exact Hu.
      * rewrite E'. exists o', ((vec_of t, idx_of t) :: d'), (l' ++ lost). split; [rewrite <- app_assoc; reflexivity|]. split; [exact O'|]. split; [|split; [|split]].
        -- rewrite (content_eq t), <- Pm, <- Pm'. cbn [map fst]. rewrite <- !app_assoc. cbn [app]. symmetry. apply Permutation_middle.
        -- exact K'.
        -- intros d [<-|Hd]; [exact (dm_wd dirs _ _ D)|exact (D' d Hd)].
        -- intros H. destruct (H (vec_of t)); [rewrite content_eq; left; reflexivity|exact (dm_wd dirs _ _ D)].
    + exists None, [(vec_of t, idx_of t)], lost. split; [reflexivity|]. split; [discriminate|]. split; [|split; [|split]].
      * cbn [kept app map fst]. rewrite content_eq. constructor. exact Pm.
      * intros u [].
      * intros d [<-|[]]. exact (dm_wd dirs _ _ D).
      * intros H. destruct (H (vec_of t)); [rewrite content_eq; left; reflexivity|exact (dm_wd dirs _ _ D)].
  - assert (Nt : ~ wd v (vec_of t)). { apply not_wd; [exact Pt|exact Pv|apply N; rewrite content_eq; left; reflexivity|]. intros D. apply (zero_ok dirs dirs_some v (vec_of t) Pv Pt) in D. congruence. }
    set (cond := fun k => key_eqb (key_and (ksucc v (vec_of t)) k) (ksucc v (vec_of t))).
    destruct (visit_ok (test2 0 0 dirs fuel v) cond v (subs_of t) del) as (m' & d' & l' & E & Pm & D' & I' & ND' & R' & U' & N').
    + intros k c d Hc C. assert (Sc := sub_size _ _ _ Hc). apply IH; [lia|exact (proj1 (ok_sub t k c Ot Hc))|exact (apart_sub _ _ _ Hc A')|exact Pv|]. intros u Hu. apply N. rewrite content_eq. right. apply in_contents. eauto.
    + intros k c Hc. exact (proj1 (ok_sub t k c Ot Hc)).
    + rewrite E. cbn [rbind]. eexists. exists d', l'. split; [reflexivity|]. split; [|split; [|split; [|split; [exact D'|]]]].
      * intros c' H. inversion H; subst. apply visited_ok; [exact Ot|exact (ND' (ok_nodup t Ot))|]. intros k c' Hc. destruct (R' k c' Hc) as (R1 & c & R2 & R3 & _). split; [exact R1|exists c; split; assumption].
      * cbn [kept]. rewrite !content_eq. cbn [vec_of subs_of app]. constructor. exact Pm.
      * cbn [kept]. rewrite content_eq. cbn [vec_of subs_of]. intros u [<-|Hu]; [exact Nt|]. apply in_contents in Hu as (k & c' & Hc & Hu). destruct (R' k c' Hc) as (_ & c & Hc0 & _ & Hi). destruct (cond k) eqn:C; [exact (Hi u Hu)|]. subst c'.
        intros W. assert (G := dominated_key t k c u v Ot Hc0 Hu Pv Z W). apply (above_ok t k c v Ot Hc0 Pv) in G. unfold cond in C. congruence.
      * intros H. apply N'. intros k c Hc _ u Hu. apply H. rewrite content_eq. right. apply in_contents. eauto.
Qed.
(** ** insert_aux *)
Lemma apart_ne l u w : apart l -> In u l -> In w l -> u <> w -> inc u w.
Proof.
  induction l as [|x l IH]; intros A Hu Hw N; [contradiction|]. inversion A as [|? ? F A']; subst. rewrite Forall_forall in F. destruct Hu as [->|Hu], Hw as [->|Hw]; [congruence|exact (F w Hw)|apply inc_sym; exact (F u Hu)|exact (IH A' Hu Hw N)].
Qed.
Lemma in_key t k c u : ok t -> In (k, c) (subs_of t) -> In u (content c) -> ksucc u (vec_of t) = k.
Proof. intros Ot Hc. exact (proj2 (proj2 (proj2 (ok_sub t k c Ot Hc))) u). Qed.
Lemma nodup_in (k : key) (c c' : tree) m : NoDup (map fst m) -> In (k, c) m -> In (k, c') m -> c = c'.
Proof.
  induction m as [|[k0 c0] m IH]; intros ND H H'; [contradiction|]. cbn [map fst] in ND. inversion ND as [|? ? Nk ND']; subst.
  destruct H as [H|H], H' as [H'|H']; [congruence| | |exact (IH ND' H H')].
  - inversion H; subst. destruct Nk. apply (in_map fst) in H'. exact H'.
  - inversion H'; subst. destruct Nk. apply (in_map fst) in H. exact H.
Qed.
Lemma changed t k c c' : ok t -> get k (subs_of t) = Some c -> ok c' -> (forall u, In u (content c') -> ksucc u (vec_of t) = k) ->
  exists others, ok (with_child t k c') /\ Permutation (content (with_child t k c')) (vec_of t :: others ++ content c') /\ Permutation (contents (subs_of t)) (others ++ content c) /\
    forall u, In u others -> exists k' x, In (k', x) (subs_of t) /\ k' <> k /\ In u (content x).
Proof.
  intros Ht G Hc Hk. unfold with_child, put. rewrite G. destruct (replace_at_split k c' (subs_of t) c G) as (a & b & E & ->). exists (contents a ++ contents b). split; [|split; [|split]].
  - inversion Ht as [v i m Pv ND Hm]; subst. cbn [vec_of idx_of subs_of] in *. subst m. constructor; [exact Pv| |].
    + rewrite map_app in *. exact ND.
    + intros k' d H. destruct (Hm k c) as (_ & Z & F & Hu); [apply in_or_app; right; left; reflexivity|].
      apply in_app_or in H as [H|[H|H]]; [apply Hm; apply in_or_app; left; exact H| |apply Hm; apply in_or_app; right; right; exact H].
      inversion H; subst. split; [exact Hc|]. split; [exact Z|]. split; [exact F|exact Hk].
  - rewrite content_eq. cbn [vec_of subs_of]. constructor. rewrite contents_app. cbn [contents flat_map snd]. fold (contents b). rewrite <- app_assoc. apply Permutation_app_head. apply Permutation_app_comm.
  - rewrite E, contents_app. cbn [contents flat_map snd]. fold (contents b). rewrite <- app_assoc. apply Permutation_app_head. apply Permutation_app_comm.
  - assert (ND := ok_nodup t Ht). rewrite E, map_app in ND. cbn [map fst] in ND. apply NoDup_remove in ND as [_ ND]. intros u Hu. rewrite <- contents_app in Hu. apply in_contents in Hu as (k' & x & Hx & Hu). exists k', x. split; [|split; [|exact Hu]].
    + rewrite E. apply in_app_or in Hx as [Hx|Hx]; apply in_or_app; [left; exact Hx|right; right; exact Hx].
    + intros ->. apply ND. rewrite <- map_app. apply (in_map fst) in Hx. exact Hx.
Qed.
Definition inserted (v : list Q) (t : tree) (del : list deletion) (r : res (bool * tree * list deletion)) : Prop :=
  exists b t' del' lost, r = Ok (b, t', del ++ del') /\ ok t' /\ (b = false <-> exists u, In u (content t) /\ wd u v) /\
    (b = false -> Permutation (content t') (content t) /\ del' = []) /\
    (b = true -> exists rest, Permutation (content t') (v :: rest) /\ cleaned v (content t) rest del' lost) /\ (n = 2 -> lost = []).
Lemma insert_aux_ok : forall fuel v i t del, size t < fuel -> ok t -> apart (content t) -> P v -> inserted v t del (insert_aux 0 0 dirs fuel v i t del).
Proof.
  induction fuel as [|fuel IH]; intros v i t del Hs Ot A Pv; [rewrite size_eq in Hs; lia|]. cbn [insert_aux]. assert (Pt := ok_vec t Ot). assert (Hs0 := Hs). rewrite size_eq in Hs.
  assert (A0 := A). rewrite content_eq in A0. inversion A0 as [|? ? Fa A']; subst. rewrite Forall_forall in Fa. destruct (full_key (ksucc v (vec_of t))) eqn:F.
  - exists false, t, [], []. rewrite app_nil_r. split; [reflexivity|]. split; [exact Ot|]. split; [split; [intros _|reflexivity]; exists (vec_of t); split; [rewrite content_eq; left; reflexivity|apply (full_ok dirs dirs_some); assumption]|].
    split; [intros _; split; reflexivity|]. split; [discriminate|reflexivity].
  - assert (NF : ~ wd (vec_of t) v) by (intros W; apply (full_ok dirs dirs_some v (vec_of t) Pv Pt) in W; congruence). destruct (zero_key (ksucc v (vec_of t))) eqn:Z.
    + assert (D := proj1 (zero_ok dirs dirs_some v (vec_of t) Pv Pt) Z). destruct (replace_ok fuel v i t del) as (new & d & E & On & Vn & Pm & Dd); [|exact Ot|exact A|exact Pv|exact D|].
      { lia. }
      rewrite E. cbn [rbind]. exists true, new, d, []. split; [reflexivity|]. split; [exact On|]. split; [|split; [discriminate|split; [|reflexivity]]].
      * split; [discriminate|]. intros (u & Hu & W). exfalso. rewrite content_eq in Hu. destruct Hu as [<-|Hu]; [contradiction|]. destruct (Fa u Hu) as [_ G]. apply G.
        apply (wd_trans dirs u v (vec_of t)); [apply (ok_all dirs t Ot); rewrite content_eq; right; exact Hu|exact Pv|exact Pt|exact W|exact (dm_wd dirs _ _ D)].
      * intros _. exists (contents (subs_of new)). split; [rewrite content_eq, Vn; reflexivity|]. split; [|split; [|split]].
        -- rewrite content_eq, Vn in Pm. cbn [app] in Pm. apply Permutation_cons_inv in Pm. rewrite app_nil_r. exact Pm.
        -- intros u Hu. rewrite <- Vn. exact (proj2 (ok_inc new u On Hu)).
        -- exact Dd.
        -- intros H. destruct (H (vec_of t)); [rewrite content_eq; left; reflexivity|exact (dm_wd dirs _ _ D)].
    + destruct (existsb (fun kc => key_ltb (fst kc) (ksucc v (vec_of t)) && key_eqb (key_and (key_not (ksucc v (vec_of t))) (key_not (fst kc))) (key_not (ksucc v (vec_of t))) && test1 0 0 dirs v (snd kc)) (subs_of t)) eqn:T.
      * apply existsb_exists in T as ([k c] & Hc & T). cbn [fst snd] in T. apply andb_true_iff in T as [_ T]. apply (test1_ok (size c) c v) in T as (u & Hu & W); [|lia|exact (proj1 (ok_sub t k c Ot Hc))|exact (apart_sub _ _ _ Hc A')|exact Pv].
        exists false, t, [], []. rewrite app_nil_r. split; [reflexivity|]. split; [exact Ot|]. split; [split; [intros _|reflexivity]; exists u; split; [rewrite content_eq; right; apply in_contents; eauto|exact W]|].
        split; [intros _; split; reflexivity|]. split; [discriminate|reflexivity].
      * set (succ := ksucc v (vec_of t)) in *. set (cond := fun k => key_ltb succ k && key_eqb (key_and succ k) succ).
        (** a member that weakly dominates v has the key of v *)
        assert (Key : forall k c u, In (k, c) (subs_of t) -> In u (content c) -> wd u v -> k = succ).
        { intros k c u Hc Hu W. assert (G := dominator_key t k c u v Ot Hc Hu Pv Z W). destruct (key_eqb k succ) eqn:Ek; [apply key_eqb_ok; exact Ek|]. exfalso.
          assert (Nk : k <> succ) by (intros ->; rewrite key_eqb_refl in Ek; discriminate). apply Bool.not_true_iff_false in T. apply T. apply existsb_exists. exists (k, c). split; [exact Hc|]. cbn [fst snd].
          rewrite (subkey_lt k succ G Nk). cbn [andb]. apply andb_true_iff. split; [apply (below_ok t k c v Ot Hc Pv); exact G|].
          apply (test1_ok (size c) c v); [lia|exact (proj1 (ok_sub t k c Ot Hc))|exact (apart_sub _ _ _ Hc A')|exact Pv|]. exists u. split; assumption. }
        assert (Cs : cond succ = false). { unfold cond. rewrite (proj2 (andb_false_iff _ _)); [reflexivity|]. left. clear. induction succ as [|x l IH]; [reflexivity|]. cbn [key_ltb]. rewrite eqb_reflx. exact IH. }
        destruct (visit_ok (test2 0 0 dirs fuel v) cond v (subs_of t) del) as (m' & d' & l' & E & Pm & D' & I' & ND' & R' & U' & N').
        { intros k c d Hc C. assert (Sc := sub_size _ _ _ Hc). apply test2_ok; [lia|exact (proj1 (ok_sub t k c Ot Hc))|exact (apart_sub _ _ _ Hc A')|exact Pv|]. intros u Hu W. rewrite (Key k c u Hc Hu W) in C. congruence. }
        { intros k c Hc. exact (proj1 (ok_sub t k c Ot Hc)). }
        rewrite E. cbn [rbind]. set (t1 := Node (vec_of t) (idx_of t) m').
        assert (O1 : ok t1). { apply visited_ok; [exact Ot|exact (ND' (ok_nodup t Ot))|]. intros k c' Hc. destruct (R' k c' Hc) as (R1 & c & R2 & R3 & _). split; [exact R1|exists c; split; assumption]. }
        assert (Two : n = 2 -> d' = [] /\ l' = []). { intros En. apply N'. intros k c Hc C. exfalso. enough (cond k = false) by congruence. unfold cond. apply two_keys; [unfold succ; rewrite ksucc_len; assumption|rewrite (key_P t k c Ot Hc); exact En|exact Z|exact (proj1 (proj2 (proj2 (ok_sub t k c Ot Hc))))]. }
        assert (Rest : forall k c' u, In (k, c') m' -> k <> succ -> In u (content c') -> ~ wd v u).
        { intros k c' u Hc Nk Hu W. destruct (R' k c' Hc) as (_ & c & Hc0 & _ & Hi). destruct (cond k) eqn:C; [exact (Hi u Hu W)|]. subst c'. assert (G := dominated_key t k c u v Ot Hc0 Hu Pv Z W). assert (G2 := G). apply (above_ok t k c v Ot Hc0 Pv) in G2. fold succ in G, G2.
          unfold cond in C. rewrite G2, (subkey_lt succ k G) in C by congruence. discriminate. }
        assert (Nt : ~ wd v (vec_of t)). { apply not_wd; [exact Pt|exact Pv|exact NF|]. intros D. apply (zero_ok dirs dirs_some v (vec_of t) Pv Pt) in D. fold succ in D. congruence. }
        destruct (get succ m') as [c|] eqn:G.
        -- assert (Hc := get_some _ _ _ G). destruct (R' succ c Hc) as (Oc & c0 & Hc0 & _ & Hi). rewrite Cs in Hi. subst c0. assert (Sc := sub_size _ _ _ Hc0). assert (Ac := apart_sub _ _ _ Hc0 A').
           destruct (IH v i c (del ++ d')) as (b & c' & d2 & l2 & E2 & Oc' & Ib & B0 & B1 & T2); [lia|exact Oc|exact Ac|exact Pv|]. rewrite E2. cbn [rbind].
           exists b, (with_child t1 succ c'), (d' ++ d2), (l' ++ l2). split; [rewrite app_assoc; reflexivity|].
           assert (Iff : b = false <-> exists u, In u (content t) /\ wd u v).
           { rewrite Ib. split; intros (u & Hu & W); [exists u; split; [rewrite content_eq; right; apply in_contents; eauto|exact W]|]. rewrite content_eq in Hu. destruct Hu as [<-|Hu]; [contradiction|].
             apply in_contents in Hu as (k & c0 & Hk & Hu). rewrite (Key k c0 u Hk Hu W) in Hk. rewrite (nodup_in succ c c0 (subs_of t) (ok_nodup t Ot) Hc0 Hk). exists u. split; assumption. }
           destruct b.
           ++ destruct (B1 eq_refl) as (rest & Pr & Pc & Kc & Dc & Nc). destruct (changed t1 succ c c' O1 G Oc') as (others & R1 & R3 & R4 & R5).
              { intros u Hu. apply (Permutation_in _ Pr) in Hu as [<-|Hu]; [reflexivity|]. apply (in_key t succ c u Ot Hc0). apply (Permutation_in _ Pc). apply in_or_app. left. exact Hu. }
              split; [exact R1|]. split; [exact Iff|]. split; [discriminate|]. split; [|intros En; rewrite (proj2 (Two En)), (T2 En); reflexivity]. intros _. exists (vec_of t :: others ++ rest). split; [|split; [|split; [|split]]].
              ** rewrite R3, Pr. cbn [t1 vec_of]. rewrite perm_swap. constructor. symmetry. apply Permutation_middle.
              ** rewrite content_eq, <- Pm. cbn [app]. constructor. cbn [t1 subs_of] in R4. rewrite R4, <- Pc, map_app. rewrite <- !app_assoc. apply Permutation_app_head. apply Permutation_app_head.
                 rewrite (app_assoc (map fst d')), (Permutation_app_comm (map fst d')), <- !app_assoc. apply Permutation_app_head. rewrite (app_assoc (map fst d')), (Permutation_app_comm (map fst d' ++ l')). reflexivity.
              ** intros u [<-|Hu]; [exact Nt|]. apply in_app_or in Hu as [Hu|Hu]; [|exact (Kc u Hu)]. destruct (R5 u Hu) as (k & x & X1 & X2 & X3). exact (Rest k x u X1 X2 X3).
              ** intros d Hd. apply in_app_or in Hd as [Hd|Hd]; [exact (D' d Hd)|exact (Dc d Hd)].
              ** intros H. destruct N' as [-> ->]; [intros k x Hx _ u Hu; apply H; rewrite content_eq; right; apply in_contents; eauto|]. destruct Nc as [-> ->]; [intros u Hu; apply H; rewrite content_eq; right; apply in_contents; eauto|]. split; reflexivity.
           ++ destruct (B0 eq_refl) as [Pc ->]. assert (None' : d' = [] /\ l' = []).
              { destruct (proj1 Ib eq_refl) as (u & Hu & W). apply N'. intros k x Hx C w Hw Ww.
                assert (Nk : k <> succ) by (intros ->; congruence). assert (Ew := in_key t k x w Ot Hx Hw). assert (Eu := in_key t succ c u Ot Hc0 Hu).
                assert (Iu : In u (contents (subs_of t))) by (apply in_contents; eauto). assert (Iw : In w (contents (subs_of t))) by (apply in_contents; eauto).
                destruct (apart_ne _ u w A' Iu Iw) as [H _]; [intros ->; congruence|]. apply H. apply (wd_trans dirs u v w); [| exact Pv | |exact W|exact Ww]; apply (ok_all dirs t Ot); rewrite content_eq; right; assumption. }
              destruct None' as [-> ->]. destruct (changed t1 succ c c' O1 G Oc') as (others & R1 & R3 & R4 & R5).
              { intros u Hu. apply (Permutation_in _ Pc) in Hu. exact (in_key t succ c u Ot Hc0 Hu). }
              split; [exact R1|]. split; [exact Iff|]. split; [|split; [discriminate|intros En; exact (T2 En)]]. intros _. split; [|reflexivity].
              rewrite R3, (content_eq t), <- Pm. cbn [map app]. rewrite app_nil_r. cbn [t1 vec_of]. constructor. cbn [t1 subs_of] in R4. rewrite R4, Pc. reflexivity.
        -- destruct (new_child dirs t1 succ (Node v i []) O1 G) as (R1 & R2 & R3); [constructor; [exact Pv|constructor|intros k c []]|exact Z|exact F|cbn; intros u [<-|[]]; reflexivity|].
           exists true, (with_child t1 succ (Node v i [])), d', l'. split; [reflexivity|]. split; [exact R1|]. split; [|split; [discriminate|split]].
           ++ split; [discriminate|]. intros (u & Hu & W). exfalso. rewrite content_eq in Hu. destruct Hu as [<-|Hu]; [contradiction|]. apply in_contents in Hu as (k & c & Hk & Hu). rewrite (Key k c u Hk Hu W) in Hk.
              apply (get_none _ _ G). exact (in_map fst _ _ (U' succ c Hk Cs)).
           ++ intros _. exists (content t1). split; [|split; [|split; [|split]]].
              ** rewrite R3. cbn [content flat_map]. symmetry. apply Permutation_cons_append.
              ** rewrite !content_eq. cbn [vec_of subs_of t1 app]. constructor. exact Pm.
              ** intros u Hu. rewrite content_eq in Hu. destruct Hu as [<-|Hu]; [exact Nt|]. cbn [subs_of t1] in Hu. apply in_contents in Hu as (k & c & Hc & Hu). apply (Rest k c u Hc); [|exact Hu]. intros ->. apply (get_none _ _ G). apply (in_map fst) in Hc. exact Hc.
              ** exact D'.
              ** intros H. apply N'. intros k x Hx _ u Hu. apply H. rewrite content_eq. right. apply in_contents. eauto.
           ++ intros En. exact (proj2 (Two En)).
Qed.
End Tree.
