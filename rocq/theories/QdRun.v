(** Sequences of offers to the quad tree. *)
From Coq Require Import List Bool Arith QArith ZArith Lia Lqa Permutation.
From Verif Require Import Lib Outcome BoundsModel BoundsProofs ParetoModel ParetoSpec ParetoProofs ArchSpec ArchProofs QdModel QdSpec QdQuad QdTree.
From Coq Require Import List.
Import ListNotations.
Close Scope Q_scope.

Section Run.
Variable dirs : list bool.
Hypothesis dirs_some : dirs <> [].
Notation n := (length dirs).
Notation wd := (weakly_dominates dirs).
Notation dm := (dominates dirs).
Notation size t := (length (content t)).
Notation P := (QdQuad.P dirs).
Notation ok := (QdQuad.ok dirs).
Notation inc := (QdQuad.inc dirs).
Notation apart := (QdQuad.apart dirs).
(** ** a step on the members *)
Definition step (before : list (list Q)) (v : list Q) (b : bool) (del : list deletion) (lost after : list (list Q)) : Prop :=
  (b = false <-> exists u, In u before /\ wd u v) /\
  (b = false -> Permutation after before /\ del = []) /\
  (b = true -> exists rest, Permutation after (v :: rest) /\ cleaned dirs v before rest del lost).
Lemma apart_nodup l : apart l -> NoDup l.
Proof.
  induction l as [|x l IH]; intros A; [constructor|]. inversion A as [|? ? F A']; subst. constructor; [|exact (IH A')]. intros H. rewrite Forall_forall in F. destruct (F x H) as [G _]. apply G. apply wd_refl.
Qed.
Lemma step_apart before v b del lost after : apart before -> step before v b del lost after -> apart after.
Proof.
  intros A (Ib & B0 & B1). destruct b.
  - destruct (B1 eq_refl) as (rest & Pa & Pc & Kc & _). apply (apart_perm dirs _ _ (Permutation_sym Pa)). constructor.
    + apply Forall_forall. intros u Hu. split; [exact (Kc u Hu)|]. intros W. assert (true = false); [|discriminate]. apply Ib. exists u. split; [|exact W]. apply (Permutation_in _ Pc). apply in_or_app. left. exact Hu.
    + apply (apart_l dirs _ (map fst del ++ lost)). exact (apart_perm dirs _ _ (Permutation_sym Pc) A).
  - destruct (B0 eq_refl) as [Pa _]. exact (apart_perm dirs _ _ (Permutation_sym Pa) A).
Qed.
Lemma step_in before v b del lost after u : step before v b del lost after -> In u after -> u = v \/ In u before.
Proof.
  intros (Ib & B0 & B1) Hu. destruct b.
  - destruct (B1 eq_refl) as (rest & Pa & Pc & _). destruct (Permutation_in _ Pa Hu) as [H|H]; [left; congruence|]. right. apply (Permutation_in _ Pc). apply in_or_app. left. exact H.
  - destruct (B0 eq_refl) as [Pa _]. right. exact (Permutation_in _ Pa Hu).
Qed.
Lemma step_right before v b del lost after : P v -> (forall u, In u before -> P u) -> step before v b del lost after -> right_answer dirs before v b del after.
Proof.
  intros Pv Pb (Ib & B0 & B1). split; [|split].
  - split.
    + intros -> u Hu W. assert (true = false); [|discriminate]. apply Ib. eauto.
    + intros H. destruct b; [reflexivity|]. destruct (proj1 Ib eq_refl) as (u & Hu & W). destruct (H u Hu W).
  - intros H. destruct (B0 H) as [Pa ->]. split; [reflexivity|]. intros u. split; apply Permutation_in; [exact Pa|exact (Permutation_sym Pa)].
  - intros ->. destruct (B1 eq_refl) as (rest & Pa & Pc & Kc & Dc & _). split; [apply (Permutation_in _ (Permutation_sym Pa)); left; reflexivity|]. split.
    + intros u Hu. destruct (Permutation_in _ Pa Hu) as [H|H]; [left; congruence|]. right. split; [|exact (Kc u H)]. apply (Permutation_in _ Pc). apply in_or_app. left. exact H.
    + intros d Hd. assert (Hb : In (fst d) before) by (apply (Permutation_in _ Pc); apply in_or_app; right; apply in_or_app; left; apply in_map; exact Hd). split; [exact Hb|].
      destruct (dm_split dirs v (fst d) Pv (Pb _ Hb) (Dc d Hd)) as [D|W]; [exact D|]. exfalso. assert (true = false); [|discriminate]. apply Ib. eauto.
Qed.
Lemma step_complete before v b del after : P v -> (forall u, In u before -> P u) -> apart before -> step before v b del [] after -> complete_answer dirs before v b del after.
Proof.
  intros Pv Pb A St. assert (R := step_right _ _ _ _ _ _ Pv Pb St). destruct St as (Ib & B0 & B1). intros ->. destruct (B1 eq_refl) as (rest & Pa & Pc & Kc & Dc & _). rewrite app_nil_r in Pc. intros u Hu.
  assert (Nv : u <> v). { intros ->. assert (true = false); [|discriminate]. apply Ib. exists v. split; [exact Hu|apply wd_refl]. }
  assert (Hu' := Permutation_in _ (Permutation_sym Pc) Hu). assert (ND := apart_nodup _ (apart_perm dirs _ _ (Permutation_sym Pc) A)). split; intros D.
  - assert (Nr : ~ In u rest) by (intros H; exact (Kc u H (dm_wd dirs _ _ D))). split.
    + apply in_app_or in Hu' as [H|H]; [contradiction|exact H].
    + intros H. apply (Permutation_in _ Pa) in H as [H|H]; [congruence|contradiction].
  - assert (Nd : ~ In u (map fst del)). { intros H. apply in_map_iff in H as (d & <- & Hd). apply D. destruct R as (_ & _ & R). exact (proj2 (proj2 (proj2 (R eq_refl)) d Hd)). }
    split; [|exact Nd]. apply (Permutation_in _ (Permutation_sym Pa)). right. apply in_app_or in Hu' as [H|H]; [exact H|contradiction].
Qed.
(** ** the front *)
Lemma both_equal u v : P u -> P v -> wd u v -> wd v u -> equal_vectors u v.
Proof.
  intros Hu Hv W1 W2. split; [unfold QdQuad.P in *; congruence|]. intros i x y Ex Ey. assert (Li : i < n) by (rewrite <- Hu; apply nth_error_Some; congruence).
  destruct (nth_error dirs i) as [d|] eqn:Ed; [|apply nth_error_None in Ed; lia]. specialize (W1 i d x y (conj Ed (conj Ex Ey))). specialize (W2 i d y x (conj Ed (conj Ey Ex))). unfold better, better_by in *. destruct d; lra.
Qed.
Lemma equal_wd u v : equal_vectors u v -> wd u v.
Proof. intros [_ H] i d x y (_ & Ex & Ey). specialize (H i x y Ex Ey). unfold better, better_by. destruct d; lra. Qed.
Definition covers (seen ms : list (list Q)) : Prop := forall x, In x seen -> exists m, In m ms /\ wd m x.
Lemma front_of seen ms : (forall x, In x seen -> P x) -> apart ms -> incl ms seen -> covers seen ms -> represents_front (dominated_by dirs) equal_vectors seen ms.
Proof.
  intros Ps A I C. assert (Front : forall m, In m ms -> in_front (dominated_by dirs) seen m).
  { intros m Hm. split; [exact (I m Hm)|]. intros y Hy D. unfold dominated_by in D. destruct (C y Hy) as (m' & Hm' & W). assert (Pm := Ps m (I m Hm)). assert (Pm' := Ps m' (I m' Hm')). assert (Py := Ps y Hy).
    apply (dm_not dirs y m Py Pm D). destruct (list_eq_dec (fun a b : Q => ltac:(decide equality; [apply Pos.eq_dec|apply Z.eq_dec]) : {a = b} + {a <> b}) m' m) as [->|N]; [exact W|].
    exfalso. destruct (apart_ne dirs ms m' m A Hm' Hm N) as [G _]. apply G. exact (wd_trans dirs _ _ _ Pm' Py Pm W (dm_wd dirs _ _ D)). }
  split; [|split; [exact Front|]].
  - intros i j a b N Ha Hb. assert (G := proj1 (FOP_index inc (inc_sym dirs) ms) A i j a b N Ha Hb). destruct G as [G1 G2]. split.
    + intros D. unfold dominated_by in D. exact (G2 (dm_wd dirs _ _ D)).
    + intros E. exact (G1 (equal_wd a b E)).
  - intros x [Hx Hn]. destruct (C x Hx) as (m & Hm & W). exists m. split; [exact Hm|]. assert (Pm := Ps m (I m Hm)). assert (Px := Ps x Hx). destruct (dm_split dirs m x Pm Px W) as [D|W']; [destruct (Hn m (I m Hm) D)|].
    exact (both_equal x m Px Pm W' W).
Qed.
Lemma step_covers seen before v b del after : P v -> (forall x, In x seen -> P x) -> incl before seen -> covers seen before -> step before v b del [] after -> covers (seen ++ [v]) after.
Proof.
  intros Pv Ps I C (Ib & B0 & B1) x Hx. destruct b.
  - destruct (B1 eq_refl) as (rest & Pa & Pc & Kc & Dc & _). rewrite app_nil_r in Pc. assert (Hv : In v after) by (apply (Permutation_in _ (Permutation_sym Pa)); left; reflexivity).
    apply in_app_or in Hx as [Hx|[<-|[]]]; [|exists v; split; [exact Hv|apply wd_refl]]. destruct (C x Hx) as (m & Hm & W). assert (Hm' := Permutation_in _ (Permutation_sym Pc) Hm). apply in_app_or in Hm' as [H|H].
    + exists m. split; [apply (Permutation_in _ (Permutation_sym Pa)); right; exact H|exact W].
    + apply in_map_iff in H as (d & E & Hd). exists v. split; [exact Hv|]. apply (wd_trans dirs v m x); [exact Pv|exact (Ps m (I m Hm))|exact (Ps x Hx)|rewrite <- E; exact (Dc d Hd)|exact W].
  - destruct (B0 eq_refl) as [Pa _]. apply in_app_or in Hx as [Hx|[<-|[]]].
    + destruct (C x Hx) as (m & Hm & W). exists m. split; [exact (Permutation_in _ (Permutation_sym Pa) Hm)|exact W].
    + destruct (proj1 Ib eq_refl) as (u & Hu & W). exists u. split; [exact (Permutation_in _ (Permutation_sym Pa) Hu)|exact W].
Qed.
(** ** the quad tree *)
Definition good (q : quad) : Prop := apart (members q) /\ forall t, q_root q = Some t -> ok t.
Lemma good_P q : good q -> forall u, In u (members q) -> P u.
Proof. intros [_ G] u Hu. unfold members in Hu. destruct (q_root q) as [t|]; [exact (ok_all dirs t (G t eq_refl) u Hu)|contradiction]. Qed.
Lemma insert_step fuel q v : length (members q) < fuel -> good q -> P v ->
  exists b del lost q', quad_insert 0 0 dirs fuel q v = Ok (b, del, q') /\ good q' /\ step (members q) v b del lost (members q') /\ (n = 2 -> lost = []).
Proof.
  intros Hf [A G] Pv. unfold quad_insert, members in *. destruct (q_root q) as [t|].
  - destruct (insert_aux_ok dirs dirs_some fuel v (q_size q - 1) t [] Hf (G t eq_refl) A Pv) as (b & t' & del & lost & E & Ot & Ib & B0 & B1 & T2). rewrite E. cbn [rbind app].
    exists b, del, lost. eexists. split; [reflexivity|]. cbn [q_root members]. assert (St : step (content t) v b del lost (content t')) by (split; [exact Ib|split; assumption]). split; [|split; [exact St|exact T2]].
    split; [exact (step_apart _ _ _ _ _ _ A St)|]. intros x Hx. cbn [q_root] in Hx. inversion Hx; subst. exact Ot.
  - exists true, [], []. eexists. split; [reflexivity|]. cbn [q_root content flat_map]. split; [|split; [|reflexivity]].
    + split; [cbn; constructor; [constructor|constructor]|]. intros t H. cbn [q_root] in H. inversion H; subst. constructor; [exact Pv|constructor|intros k c []].
    + split; [split; [discriminate|intros (u & [] & _)]|]. split; [discriminate|]. intros _. exists []. split; [reflexivity|]. split; [reflexivity|]. split; [intros u []|]. split; [intros d []|]. intros _. split; reflexivity.
Qed.
Lemma good_nothing : good nothing.
Proof. split; [constructor|discriminate]. Qed.
Lemma step_size before v b del lost after : step before v b del lost after -> length after <= S (length before).
Proof.
  intros (_ & B0 & B1). destruct b.
  - destruct (B1 eq_refl) as (rest & Pa & Pc & _). rewrite (Permutation_length Pa), <- (Permutation_length Pc), app_length. cbn. lia.
  - destruct (B0 eq_refl) as [Pa _]. rewrite (Permutation_length Pa). lia.
Qed.
Lemma offer_app {X} (ins : X -> list Q -> res (bool * list deletion * X)) : forall vs ws x bs y, offer ins x vs = Ok (bs, y) ->
  offer ins x (vs ++ ws) = (let! (cs, z) := offer ins y ws in Ok (bs ++ cs, z)).
Proof.
  induction vs as [|v vs IH]; intros ws x bs y E; cbn [offer app] in *.
  - inversion E; subst. destruct (offer ins y ws) as [[cs z]| | |]; reflexivity.
  - destruct (ins x v) as [[[b d] x1]| | |]; cbn [rbind] in *; try discriminate. destruct (offer ins x1 vs) as [[bs1 y1]| | |] eqn:E1; cbn [rbind] in *; try discriminate. inversion E; subst. rewrite (IH ws x1 bs1 y E1).
    destruct (offer ins y ws) as [[cs z]| | |]; reflexivity.
Qed.
Lemma run_good fuel : forall vs seen q, length (members q) + length vs <= fuel -> good q -> (forall v, In v (seen ++ vs) -> P v) -> incl (members q) seen -> (n = 2 -> covers seen (members q)) ->
  exists bs q', offer (quad_insert 0 0 dirs fuel) q vs = Ok (bs, q') /\ good q' /\ incl (members q') (seen ++ vs) /\ (n = 2 -> covers (seen ++ vs) (members q')) /\ length (members q') <= length (members q) + length vs /\ length bs = length vs.
Proof.
  induction vs as [|v vs IH]; intros seen q Hf G Ps I C; cbn [offer].
  - exists [], q. rewrite app_nil_r. repeat split; auto; try exact (proj1 G); try exact (proj2 G). lia.
  - assert (Pv : P v) by (apply Ps; apply in_or_app; right; left; reflexivity). assert (Ps0 : forall x, In x seen -> P x) by (intros x Hx; apply Ps; apply in_or_app; left; exact Hx).
    destruct (insert_step fuel q v) as (b & del & lost & q1 & E & G1 & St & T2); [cbn [length] in Hf; lia|exact G|exact Pv|]. rewrite E. cbn [rbind]. assert (L1 := step_size _ _ _ _ _ _ St).
    destruct (IH (seen ++ [v]) q1) as (bs & q' & E' & G' & I' & C' & L' & Lb).
    + cbn [length] in Hf. lia.
    + exact G1.
    + rewrite <- app_assoc. exact Ps.
    + intros u Hu. destruct (step_in _ _ _ _ _ _ u St Hu) as [->|H]; apply in_or_app; [right; left; reflexivity|left; exact (I u H)].
    + intros En. rewrite (T2 En) in St. exact (step_covers seen _ v b del _ Pv Ps0 I (C En) St).
    + rewrite E'. cbn [rbind]. exists (b :: bs), q'. rewrite <- app_assoc in I', C'. cbn [app] in I', C'. repeat split; auto; try exact (proj1 G'); try exact (proj2 G'); cbn [length]; lia.
Qed.
Lemma quad_run fuel vs : length vs <= fuel -> sized dirs vs ->
  exists bs q, offer (quad_insert 0 0 dirs fuel) nothing vs = Ok (bs, q) /\ good q /\ incl (members q) vs /\ length (members q) <= length vs /\ length bs = length vs /\
    (n = 2 -> represents_front (dominated_by dirs) equal_vectors vs (members q)).
Proof.
  intros Hf Sz. destruct (run_good fuel vs [] nothing) as (bs & q & E & G & I & C & L & Lb); [cbn; lia|exact good_nothing|exact Sz|intros u []|intros _ x []|]. cbn [app members nothing q_root length] in *.
  exists bs, q. split; [exact E|]. split; [exact G|]. split; [exact I|]. split; [lia|]. split; [exact Lb|]. intros En. apply front_of; [exact Sz|exact (proj1 G)|exact I|exact (C En)].
Qed.
Lemma good_antichain q : good q -> antichain (dominated_by dirs) equal_vectors (members q).
Proof.
  intros [A _] i j a b N Ha Hb. assert (G := proj1 (FOP_index inc (inc_sym dirs) _) A i j a b N Ha Hb). destruct G as [G1 G2]. split.
  - intros D. unfold dominated_by in D. exact (G2 (dm_wd dirs _ _ D)).
  - intros E. exact (G1 (equal_wd a b E)).
Qed.
Lemma quad_answers fuel before v : length before < fuel -> sized dirs (before ++ [v]) ->
  exists bs q b del q', offer (quad_insert 0 0 dirs fuel) nothing before = Ok (bs, q) /\ quad_insert 0 0 dirs fuel q v = Ok (b, del, q') /\
    right_answer dirs (members q) v b del (members q') /\ (n = 2 -> complete_answer dirs (members q) v b del (members q')) /\
    offer (quad_insert 0 0 dirs fuel) nothing (before ++ [v]) = Ok (bs ++ [b], q').
Proof.
  intros Hf Sz. assert (Sb : sized dirs before) by (intros u Hu; apply Sz; apply in_or_app; left; exact Hu). destruct (quad_run fuel before) as (bs & q & E & G & I & L & _); [lia|exact Sb|].
  assert (Pv : P v) by (apply Sz; apply in_or_app; right; left; reflexivity). destruct (insert_step fuel q v) as (b & del & lost & q' & E' & G' & St & T2); [lia|exact G|exact Pv|].
  exists bs, q, b, del, q'. split; [exact E|]. split; [exact E'|]. assert (Pq := good_P q G). split; [exact (step_right _ _ _ _ _ _ Pv Pq St)|]. split.
  - intros En. rewrite (T2 En) in St. exact (step_complete _ _ _ _ _ Pv Pq (proj1 G) St).
  - rewrite (offer_app _ before [v] _ _ _ E). cbn [offer]. rewrite E'. reflexivity.
Qed.
End Run.
