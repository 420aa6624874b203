(** C127-C128: the epsilon hyperbox archive. *)
From Coq Require Import Bool Arith ZArith QArith Lqa Lia Permutation.
From Verif Require Import Lib Outcome ParetoModel ParetoSpec ParetoProofs BoundsModel BoundsProofs BoxModel BoxSpec BoxProofs BoxFront.
From Coq Require Import List.
Import ListNotations.
Close Scope Q_scope.
Open Scope nat_scope.

Section P.
Context {G : Type}.
Variable obj : G -> list Q.
Variable tol : Q.
Variable dirs : list bool.
Variable eps : list Q.
Hypothesis Heps : length eps = length dirs.

Lemma some_of_in (new old : list G) a : some_of new old -> In a new -> In a old.
Proof. intros [g P] J. apply (Permutation_in _ (Permutation_sym P)), in_or_app. auto. Qed.
Lemma offers_ok vs : forall st, inv obj dirs st -> all_sized obj dirs vs -> exists st', offers obj tol dirs eps st vs = Ok st' /\ inv obj dirs st' /\
  (forall a, In a (mem st') -> In a (mem st) \/ In a vs) /\ (mem st <> [] \/ vs <> [] -> mem st' <> []).
Proof.
  induction vs as [|v vs IH]; intros st I Sz; cbn [offers].
  - exists st. repeat split; auto; try (apply I). intros [|]; auto.
  - destruct (offer_cases obj tol dirs eps Heps st v I) as (st1 & r & -> & I1 & N1 & C); [apply Sz; left; auto|]. cbn [rbind].
    destruct (IH st1 I1) as (st' & E & I' & K & N); [intros b J; apply Sz; right; auto|]. exists st'. split; [auto|]. split; [auto|]. split; [|auto].
    intros a J. destruct (K a J) as [J1|J1]; [|right; right; auto].
    destruct C as [(M & M' & _)|(_ & st2 & ch & _ & [(_ & -> & _)|(_ & _ & _ & corner & _ & [So|(_ & kept & M' & So & _)])])].
    + rewrite M' in J1. destruct J1 as [<-|[]]. right. left. auto.
    + auto.
    + left. eapply some_of_in; eauto.
    + rewrite M' in J1. apply in_app_or in J1 as [J1|[<-|[]]]; [left; eapply some_of_in; eauto|right; left; auto].
Qed.
Lemma inv_between st : inv obj dirs st -> mem st <> [] -> between obj dirs (mem st) (bnd st).
Proof.
  intros [Sz F] N. destruct (mem st) as [|m l]; [tauto|]. split.
  - exact (proj1 (within_length _ _ _ (fine_in _ _ _ _ _ F m (or_introl eq_refl)))).
  - intros k d i n a x Ed Eb J Ex. destruct (within_at _ _ _ _ _ _ _ _ (fine_in _ _ _ _ _ F a J) Ed Eb Ex). rewrite <- !nb_better. auto.
Qed.
Lemma offers_app vs ws : forall st, offers obj tol dirs eps st (vs ++ ws) = rbind (offers obj tol dirs eps st vs) (fun s => offers obj tol dirs eps s ws).
Proof. induction vs as [|v vs IH]; intros st; cbn; auto. destruct (offer obj tol dirs eps st v) as [[s r]| | |]; cbn; auto. Qed.
End P.

(** C127: whatever is offered, offering is defined; the members were all offered, there is one as
    soon as something was offered, and all lie between the ideal and the nadir points *)
Theorem C127_members (G : Type) (obj : G -> list Q) (tol : Q) (dirs : list bool) (eps : list Q) (vs : list G) :
  length eps = length dirs -> all_sized obj dirs vs ->
  exists st, offers obj tol dirs eps (empty_box dirs) vs = Ok st /\ incl (mem st) vs /\
  (vs <> [] -> mem st <> [] /\ between obj dirs (mem st) (bnd st)).
Proof.
  intros He Sz. destruct (offers_ok obj tol dirs eps He vs _ (inv_empty obj dirs) Sz) as (st & E & I & K & N).
  exists st. split; [auto|]. split.
  - intros a J. destruct (K a J) as [[]|]; auto.
  - intros Nv. split; [auto|]. apply inv_between; auto.
Qed.
Print Assumptions C127_members.

(** C127: an offer either leaves the archive with some of its members, or adds the solution to some
    of its members; then the ideal and the nadir points are exactly the best and the worst values *)
Theorem C127_offer (G : Type) (obj : G -> list Q) (tol : Q) (dirs : list bool) (eps : list Q) (vs : list G) (v : G) (st st' : box G) (r : bool) :
  length eps = length dirs -> all_sized obj dirs (v :: vs) ->
  offers obj tol dirs eps (empty_box dirs) vs = Ok st -> offer obj tol dirs eps st v = Ok (st', r) ->
  some_of (mem st') (mem st) \/
  (r = true /\ (exists kept, mem st' = kept ++ [v] /\ some_of kept (mem st)) /\ extremes obj dirs (mem st') (bnd st')).
Proof.
  intros He Sz E Ev. destruct (offers_ok obj tol dirs eps He vs _ (inv_empty obj dirs)) as (s & E' & I & _ & _); [intros b J; apply Sz; right; auto|].
  rewrite E in E'. injection E' as <-.
  destruct (offer_cases obj tol dirs eps He st v I) as (s' & r' & Ev' & I' & N' & C); [apply Sz; left; auto|]. rewrite Ev in Ev'. injection Ev' as <- <-.
  assert (X : attained obj (mem st') (bnd st') -> extremes obj dirs (mem st') (bnd st')).
  { intros At. destruct (inv_between obj dirs st' I' N') as [Lb Bt]. split; [auto|]. intros k d i n Ed Eb. destruct (At k i n Eb) as [A1 A2].
    split; [auto|]. split; [auto|]. intros a x J Ex. eapply Bt; eauto. }
  destruct C as [(M & M' & -> & At)|(_ & st2 & ch & _ & [(_ & -> & _)|(_ & _ & _ & corner & _ & [So|(-> & kept & M' & So & _ & At)])])].
  - right. split; [auto|]. split; [|auto]. exists []. split; [auto|]. rewrite M. exists []. auto.
  - left. exists []. rewrite app_nil_r. auto.
  - auto.
  - right. split; [auto|]. split; [eauto|auto].
Qed.
Print Assumptions C127_offer.

(** every offer to an archive that is not empty finds, on each objective, a member with another value *)
Definition always_spread {G : Type} (obj : G -> list Q) (tol : Q) (dirs : list bool) (eps : list Q) (vs : list G) : Prop :=
  forall before v after st, vs = before ++ v :: after -> before <> [] ->
  offers obj tol dirs eps (empty_box dirs) before = Ok st -> spread obj dirs (mem st) v.

(** C127: if each new solution differs from some member on each objective, no member is at least as
    good as another one on all objectives: there are neither dominated members nor duplicates *)
Theorem C127_incomparable (G : Type) (obj : G -> list Q) (tol : Q) (dirs : list bool) (eps : list Q) (vs : list G) (st : box G) :
  length eps = length dirs -> Forall (fun e => 0 < e)%Q eps -> (0 <= tol < 1)%Q -> all_sized obj dirs vs ->
  always_spread obj tol dirs eps vs -> offers obj tol dirs eps (empty_box dirs) vs = Ok st -> incomparable obj dirs (mem st).
Proof.
  intros He Hp Ht Sz Sp E. 
  assert (K : forall ws pre s, vs = pre ++ ws -> offers obj tol dirs eps (empty_box dirs) pre = Ok s -> spread_all obj tol dirs eps s ws).
  { induction ws as [|w ws IH]; intros pre s Ev Ep; cbn [spread_all]; [exact Logic.I|]. split.
    - destruct pre as [|p pre]; [cbn in Ep; injection Ep as <-; left; reflexivity|]. right. eapply (Sp (p :: pre)); eauto. discriminate.
    - intros s' r Es. apply (IH (pre ++ [w])); [rewrite <- app_assoc; auto|]. rewrite offers_app, Ep. cbn. rewrite Es. reflexivity. }
  destruct (offers_front obj tol dirs eps He Hp Ht vs (empty_box dirs) (inv_empty obj dirs) Sz) as (s & E' & F); [constructor|exact (K vs [] _ eq_refl eq_refl)|].
  rewrite E in E'. injection E' as <-. eapply fop_incomparable; eauto.
Qed.
Print Assumptions C127_incomparable.

(** C127: filtering again is defined and keeps only members *)
Theorem C127_filtre (G : Type) (obj : G -> list Q) (tol : Q) (dirs : list bool) (eps : list Q) (vs : list G) (st : box G) :
  length eps = length dirs -> all_sized obj dirs vs -> offers obj tol dirs eps (empty_box dirs) vs = Ok st ->
  exists st', filtre obj tol dirs eps st = Ok st' /\ incl (mem st') (mem st) /\ (vs <> [] -> mem st' <> []).
Proof.
  intros He Sz E. destruct (offers_ok obj tol dirs eps He vs _ (inv_empty obj dirs) Sz) as (s & E' & I & _ & N). rewrite E in E'. injection E' as <-.
  destruct (offers_ok obj tol dirs eps He (mem st) st I (proj1 I)) as (st' & E1 & _ & K & N1). exists st'. split; [exact E1|]. split.
  - intros a J. destruct (K a J); auto.
  - intros Nv. apply N1. left. apply N. auto.
Qed.
Print Assumptions C127_filtre.

(** C127: a solution that falls in the hyperbox of the only member, neither dominating the other, takes its place exactly when it is
    at least as close to the corner of the box *)
Lemma square_distance_ok : forall v zs, length v = length zs -> exists q, sq_dist v (map Some zs) = Ok q /\ (q == square_distance v (map inject_Z zs))%Q.
Proof.
  induction v as [|x v IH]; intros [|z zs] L; try discriminate; [exists 0%Q; split; reflexivity|].
  destruct (IH zs) as (q & E & Q1); [injection L; auto|]. cbn [map sq_dist]. rewrite E. cbn [rbind]. eexists. split; [reflexivity|].
  cbn [square_distance]. rewrite Q1. reflexivity.
Qed.
Lemma same_corner_some : forall zs, same_corner (map Some zs) (map Some zs) = true.
Proof. induction zs as [|z zs IH]; [reflexivity|]. cbn. rewrite Z.eqb_refl. exact IH. Qed.
Lemma corner_not_dom tol : forall dirs zs, corner_dom tol dirs (map Some zs) (map Some zs) = false.
Proof.
  unfold corner_dom. induction dirs as [|d dirs IH]; intros [|z zs]; cbn [map corner_loop]; auto.
  assert (N : less_c (Some z) (Some z) = false) by (apply qltb_ge; apply Qle_refl). rewrite N. destruct (differ_c tol (Some z) (Some z)), d; auto.
Qed.
Theorem C127_closest (G : Type) (obj : G -> list Q) (tol : Q) (dirs : list bool) (eps : list Q) (a v : G) (st st1 st' : box G) (change : Z) (zs : list Z) (r : bool) :
  mem st = [a] -> length (obj a) = length zs -> length (obj v) = length zs -> changeBounds obj dirs st v = Ok (st1, change) -> (0 <= change)%Z ->
  mem st1 = [a] -> hyperbox dirs eps (scale st1) (obj v) = Ok (map Some zs) -> hyperbox dirs eps (scale st1) (obj a) = Ok (map Some zs) ->
  pareto tol dirs (obj a) (obj v) = false -> pareto tol dirs (obj v) (obj a) = false -> a <> v ->
  offer obj tol dirs eps st v = Ok (st', r) ->
  (mem st' = [v] <-> (square_distance (obj v) (map inject_Z zs) <= square_distance (obj a) (map inject_Z zs))%Q) /\ (mem st' = [v] \/ mem st' = [a]).
Proof.
  intros M La Lv Ec Hc M1 Hv Ha P1 P2 Nav E. unfold offer in E. rewrite M, Ec in E. cbn [rbind] in E.
  assert (B : (change <? 0)%Z = false) by (apply Z.ltb_ge; exact Hc). rewrite B, Hv in E. cbn [rbind] in E. rewrite M1 in E. cbn [length scan] in E.
  rewrite Ha in E. cbn [rbind] in E. rewrite corner_not_dom, same_corner_some, P1, P2 in E.
  destruct (square_distance_ok (obj v) zs Lv) as (d1 & E1 & Q1). destruct (square_distance_ok (obj a) zs La) as (d2 & E2 & Q2).
  rewrite E1, E2 in E. cbn [rbind] in E. rewrite <- Q1, <- Q2. destruct (Qle_bool d1 d2) eqn:D.
  - cbn [fill scan rbind mem] in E. unfold recalculateBounds in E. cbn [app] in E.
    apply Qle_bool_iff in D. apply rbind_ok in E as (s & E & E'). injection E' as <- <-.
    assert (Ms : mem s = [v]) by (destruct s as [ms bs ss]; revert E; repeat (match goal with |- context [rbind ?x _] => destruct x; cbn [rbind]; try discriminate end); intros E; injection E; auto).
    rewrite Ms. tauto.
  - cbn [rbind] in E. injection E as <- <-. cbn [mem app]. assert (~ (d1 <= d2)%Q) by (rewrite <- Qle_bool_iff; congruence).
    split; [|auto]. split; [intros X; congruence|tauto].
Qed.
Print Assumptions C127_closest.

(** ** examples *)
Definition half : list Q := [(1 # 2)%Q; (1 # 2)%Q].
Definition tenth : list Q := [(1 # 10)%Q; (1 # 10)%Q].
Definition min2 : list bool := [true; true].
Definition vec (l : list Z) : list Q := map inject_Z l.
Definition id_obj (v : list Q) : list Q := v.
(** a run that meets the hypotheses of C127_incomparable, with both directions and an eviction *)
Example C127_example :
  match offers id_obj 0 [true; false] tenth (empty_box [true; false]) [vec [5; 2]; vec [8; 9]; vec [0; 0]; vec [1; 7]]%Z with
  | Ok st => mem st = [vec [0; 0]; vec [8; 9]; vec [1; 7]]%Z /\ bnd st = [(0, 8); (9, 0)]%Q
  | _ => False
  end.
Proof. vm_compute. auto. Qed.
Example C127_example_spread : always_spread id_obj 0 [true; false] tenth [vec [5; 2]; vec [8; 9]; vec [0; 0]; vec [1; 7]]%Z.
Proof.
  intros before v after st E N H.
  assert (S1 : forall m x y, In m (mem st) -> v = [x; y] -> match m with [x'; y'] => ~ (x' == x)%Q /\ ~ (y' == y)%Q | _ => False end ->
    spread id_obj [true; false] (mem st) v).
  { intros m x y J -> D. destruct m as [|x' [|y' [|]]]; try tauto. destruct D as [D1 D2]. intros [|[|k]] z Hk Ez; cbn in Hk, Ez; try lia;
    injection Ez as <-; eexists; [exists x'|exists y']; (split; [exact J|split; [reflexivity|auto]]). }
  destruct before as [|b1 [|b2 [|b3 [|b4 before]]]]; [tauto| | | |].
  - injection E as <- <- _. vm_compute in H. injection H as <-. eapply S1; [left; reflexivity|reflexivity|]. split; discriminate.
  - injection E as <- <- <- _. vm_compute in H. injection H as <-. eapply S1; [left; reflexivity|reflexivity|]. split; discriminate.
  - injection E as <- <- <- <- _. vm_compute in H. injection H as <-. eapply S1; [right; left; reflexivity|reflexivity|]. split; discriminate.
  - destruct before; discriminate.
Qed.

(** ** what does not hold *)
(** C128: the answer true does not tell that the solution is non-dominated: a dominated solution is
    even taken, when all the members share a value *)
Theorem C128_true_when_nondominated_refuted : exists (vs : list (list Q)) (v : list Q) (st st' : box (list Q)) (a : list Q),
  offers id_obj 0 [true; true; true] [1; 1; 1]%Q (empty_box [true; true; true]) vs = Ok st /\
  offer id_obj 0 [true; true; true] [1; 1; 1]%Q st v = Ok (st', true) /\
  In a (mem st') /\ In v (mem st') /\ dominates [true; true; true] a v.
Proof.
  destruct (offers id_obj 0 [true; true; true] [1; 1; 1]%Q (empty_box [true; true; true]) [vec [4; 0; 4]; vec [4; 6; 2]]%Z) as [st| | |] eqn:E; try (vm_compute in E; discriminate).
  exists [vec [4; 0; 4]; vec [4; 6; 2]]%Z, (vec [4; 4; 4]%Z), st.
  vm_compute in E. injection E as <-. eexists. exists (vec [4; 0; 4]%Z). split; [reflexivity|]. split; [vm_compute; reflexivity|].
  split; [left; reflexivity|]. split; [right; right; left; reflexivity|]. split.
  - intros [|[|[|k]]] d x y (Ed & Ex & Ey); cbn in Ed, Ex, Ey;
      try (injection Ed as <-; injection Ex as <-; injection Ey as <-; vm_compute; discriminate).
    destruct k; discriminate.
  - exists 1, true, 0%Q, 4%Q. split; [repeat split|]. cbn. lra.
Qed.
Print Assumptions C128_true_when_nondominated_refuted.
(** C128: nor does false tell that it is dominated: with three objectives a solution worse than the
    nadir on one objective is refused although no member is at least as good *)
Theorem C128_false_when_dominated_refuted : exists (vs : list (list Q)) (v : list Q) (st : box (list Q)),
  offers id_obj 0 [true; true; true] [1; 1; 1]%Q (empty_box [true; true; true]) vs = Ok st /\
  offer id_obj 0 [true; true; true] [1; 1; 1]%Q st v = Ok (st, false) /\
  forall a, In a (mem st) -> ~ weakly_dominates [true; true; true] a v.
Proof.
  destruct (offers id_obj 0 [true; true; true] [1; 1; 1]%Q (empty_box [true; true; true]) [vec [0; 5; 5]; vec [5; 0; 5]; vec [5; 5; 0]]%Z) as [st| | |] eqn:E; try (vm_compute in E; discriminate).
  exists [vec [0; 5; 5]; vec [5; 0; 5]; vec [5; 5; 0]]%Z, (vec [1; 1; 6]%Z), st.
  vm_compute in E. injection E as <-. split; [reflexivity|]. split; [vm_compute; reflexivity|].
  intros a J W. 
  assert (D : (nth 0 a 0 <= 1 /\ nth 1 a 0 <= 1)%Q).
  { destruct J as [<-|[<-|[<-|[]]]].
    - pose proof (W 1 true 5%Q 1%Q ltac:(repeat split)) as X. exfalso. apply X. reflexivity.
    - pose proof (W 0 true 5%Q 1%Q ltac:(repeat split)) as X. exfalso. apply X. reflexivity.
    - pose proof (W 0 true 5%Q 1%Q ltac:(repeat split)) as X. exfalso. apply X. reflexivity. }
  destruct J as [<-|[<-|[<-|[]]]]; vm_compute in D; destruct D as [D1 D2]; try (apply D1; reflexivity); apply D2; reflexivity.
Qed.
Print Assumptions C128_false_when_dominated_refuted.
(** C128: the same solution can be stored twice *)
Theorem C128_no_duplicates_refuted : exists (vs : list (list Q)) (st : box (list Q)) (a : list Q),
  offers id_obj 0 min2 half (empty_box min2) vs = Ok st /\ mem st = [a; a].
Proof.
  exists [vec [4; 4]; vec [3; 0]; vec [3; 0]]%Z. eexists. exists (vec [3; 0]%Z). split; vm_compute; reflexivity.
Qed.
Print Assumptions C128_no_duplicates_refuted.
(** C128: an offer can make the archive lose a solution without putting another one in: offering a
    member again removes it, and nothing left is at least as good *)
Theorem C128_nothing_lost_refuted : exists (vs : list (list Q)) (v : list Q) (st st' : box (list Q)),
  let dirs := [true; true; true] in let eps := [1 # 2; 1 # 2; 1 # 2]%Q in
  offers id_obj 0 dirs eps (empty_box dirs) vs = Ok st /\ In v (mem st) /\
  offer id_obj 0 dirs eps st v = Ok (st', true) /\ forall a, In a (mem st') -> ~ weakly_dominates dirs a v.
Proof.
  destruct (offers id_obj 0 [true; true; true] [1 # 2; 1 # 2; 1 # 2]%Q (empty_box [true; true; true]) [vec [0; 4; 6]; vec [1; 0; 3]; vec [4; 6; 0]]%Z) as [st| | |] eqn:E; try (vm_compute in E; discriminate).
  exists [vec [0; 4; 6]; vec [1; 0; 3]; vec [4; 6; 0]]%Z, (vec [0; 4; 6]%Z), st.
  vm_compute in E. injection E as <-. eexists. intros dirs eps. split; [reflexivity|]. split; [left; reflexivity|]. split; [vm_compute; reflexivity|].
  intros a J W. destruct J as [<-|[<-|[]]].
  - pose proof (W 0 true 4%Q 0%Q ltac:(repeat split)) as X. apply X. reflexivity.
  - pose proof (W 0 true 1%Q 0%Q ltac:(repeat split)) as X. apply X. reflexivity.
Qed.
Print Assumptions C128_nothing_lost_refuted.
Example C127_closest_ex : let st := Box [vec [0; 10]%Z] (point (vec [0; 10]%Z)) [(Some 1, 0); (Some 1, 0)]%Q in
  match changeBounds id_obj min2 st (vec [8; 0]%Z) with
  | Ok (st1, change) => (0 <= change)%Z /\ mem st1 = [vec [0; 10]%Z] /\ hyperbox min2 [2; 2]%Q (scale st1) (vec [8; 0]%Z) = Ok (map Some [0; 0]%Z) /\
      hyperbox min2 [2; 2]%Q (scale st1) (vec [0; 10]%Z) = Ok (map Some [0; 0]%Z)
  | _ => False
  end /\
  match offer id_obj 0 min2 [2; 2]%Q st (vec [8; 0]%Z) with Ok (st', r) => mem st' = [vec [8; 0]%Z] | _ => False end.
Proof. vm_compute. repeat split; discriminate. Qed.
