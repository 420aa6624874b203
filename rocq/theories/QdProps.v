(** C147, C148: the archive indexes. *)
From Coq Require Import List Bool Arith QArith ZArith Lia Permutation.
From Verif Require Import Lib Outcome ParetoModel ParetoSpec ParetoProofs ArchSpec QdModel QdSpec QdQuad QdTree QdRun QdQuick.
From Coq Require Import List.
Import ListNotations.
Close Scope Q_scope.

(** offers to the quick index, with its flag set *)
Notation quick_offer dirs := (offer (fun l v => Ok (quick_insert 0 dirs true l v))).
Notation quad_offer dirs fuel := (offer (quad_insert 0 0 dirs fuel)).
(** ** C147 *)
Theorem C147_quick_front : forall dirs vs, length dirs = 2 -> sized dirs vs ->
  exists bs l, quick_offer dirs [] vs = Ok (bs, l) /\ length bs = length vs /\ represents_front (dominated_by dirs) equal_vectors vs (vectors l).
Proof.
  intros [|d0 [|d1 [|]]] vs L Sz; try discriminate. destruct (quick_run d0 d1 vs Sz) as (bs & l & E & _ & Lb & F). exists bs, l. split; [exact E|split; assumption].
Qed.
Theorem C147_quick_answers : forall dirs before v, length dirs = 2 -> sized dirs (before ++ [v]) ->
  exists bs l b del l', quick_offer dirs [] before = Ok (bs, l) /\ quick_insert 0 dirs true l v = (b, del, l') /\
    right_answer dirs (vectors l) v b del (vectors l') /\ complete_answer dirs (vectors l) v b del (vectors l') /\
    quick_offer dirs [] (before ++ [v]) = Ok (bs ++ [b], l').
Proof.
  intros [|d0 [|d1 [|]]] before v L Sz; try discriminate. destruct (quick_answers d0 d1 before v Sz) as (bs & l & b & del & l' & E1 & E2 & E3 & E4 & _ & E5). exists bs, l, b, del, l'. split; [exact E1|]. split; [exact E2|]. split; [exact E3|]. split; [exact E4|exact E5].
Qed.
(** asking with the flag cleared gives the same answer and changes nothing *)
Theorem C147_quick_ask : forall tol dirs l v, exists b del l', quick_insert tol dirs true l v = (b, del, l') /\ quick_insert tol dirs false l v = (b, del, l).
Proof.
  intros tol dirs l v. unfold quick_insert. destruct l as [|e l]; [repeat eexists|]. destruct (nth_error (e :: l) (lower_bound dirs (e :: l) v)).
  - destruct (_ || _); [repeat eexists|]. destruct (if _ =? 0 then _ else _); repeat eexists.
  - destruct (nth_error (e :: l) (lower_bound dirs (e :: l) v - 1)); [|repeat eexists]. destruct (pareto _ _ _ _); repeat eexists.
Qed.
Theorem C147_quad_front : forall dirs vs fuel, length dirs = 2 -> sized dirs vs -> length vs <= fuel ->
  exists bs q, quad_offer dirs fuel nothing vs = Ok (bs, q) /\ length bs = length vs /\ represents_front (dominated_by dirs) equal_vectors vs (members q).
Proof.
  intros dirs vs fuel L Sz Hf. destruct (quad_run dirs) with (fuel := fuel) (vs := vs) as (bs & q & E & _ & _ & _ & Lb & F); [intros ->; discriminate|exact Hf|exact Sz|]. exists bs, q. split; [exact E|]. split; [exact Lb|exact (F L)].
Qed.
(** with any number of objectives: no member is worse than another, only offered vectors are members *)
Theorem C147_quad_antichain : forall dirs vs fuel, dirs <> [] -> sized dirs vs -> length vs <= fuel ->
  exists bs q, quad_offer dirs fuel nothing vs = Ok (bs, q) /\ length bs = length vs /\ antichain (dominated_by dirs) equal_vectors (members q) /\ incl (members q) vs.
Proof.
  intros dirs vs fuel N Sz Hf. destruct (quad_run dirs N fuel vs Hf Sz) as (bs & q & E & G & I & _ & Lb & _). exists bs, q. split; [exact E|]. split; [exact Lb|]. split; [exact (good_antichain dirs q G)|exact I].
Qed.
Theorem C147_quad_answers : forall dirs before v fuel, dirs <> [] -> sized dirs (before ++ [v]) -> length before < fuel ->
  exists bs q b del q', quad_offer dirs fuel nothing before = Ok (bs, q) /\ quad_insert 0 0 dirs fuel q v = Ok (b, del, q') /\
    right_answer dirs (members q) v b del (members q') /\ (length dirs = 2 -> complete_answer dirs (members q) v b del (members q')) /\
    quad_offer dirs fuel nothing (before ++ [v]) = Ok (bs ++ [b], q').
Proof. intros dirs before v fuel N Sz Hf. exact (quad_answers dirs N fuel before v Hf Sz). Qed.
(** vectors of two minimised objectives: the answers, and the members left *)
Definition vs1 : list (list Q) := [[3; 3]; [1; 5]; [5; 1]; [4; 4]; [2; 2]; [2; 2]; [0; 9]]%Q.
Example C147_quick_case : match quick_offer [true; true] [] vs1 with Ok (bs, l) => bs = [true; true; true; false; true; false; true] /\ vectors l = [[5; 1]; [2; 2]; [1; 5]; [0; 9]]%Q | _ => False end.
Proof. vm_compute. auto. Qed.
Example C147_quad_case : match quad_offer [true; true] 7 nothing vs1 with Ok (bs, q) => bs = [true; true; true; false; true; false; true] /\ members q = [[2; 2]; [1; 5]; [0; 9]; [5; 1]]%Q | _ => False end.
Proof. vm_compute. auto. Qed.
(** a replaced root with a dominated and a kept child *)
Example C147_quad_case3 : match quad_offer [true; false; true] 9 nothing [[3; 3; 3]; [2; 2; 4]; [4; 4; 3]; [5; 1; 1]; [2; 4; 3]]%Q with
  Ok (bs, q) => bs = [true; true; true; true; true] /\ members q = [[2; 4; 3]; [5; 1; 1]]%Q | _ => False end.
Proof. vm_compute. auto. Qed.
Example C147_sized_case : sized [true; true] vs1 /\ length [true; true] = 2 /\ length vs1 <= 7.
Proof. split; [|split; [reflexivity|cbn; lia]]. intros v Hv. repeat destruct Hv as [<-|Hv]; try reflexivity. contradiction. Qed.

(** ** C148: what fails *)
(** with three objectives the quad tree loses a vector that nothing dominates *)
Theorem C148_quad_three_refuted : exists vs v bs q, sized [true; true; true] vs /\ quad_offer [true; true; true] 100 nothing vs = Ok (bs, q) /\
  in_front (dominated_by [true; true; true]) vs v /\ (forall m, In m (members q) -> ~ equal_vectors v m) /\ ~ represents_front (dominated_by [true; true; true]) equal_vectors vs (members q).
Proof.
  set (dirs := [true; true; true]). set (vs := [[20; 20; 20]; [10; 30; 30]; [8; 25; 40]; [11; 35; 25]; [9; 19; 29]]%Q). set (v := [11; 35; 25]%Q).
  assert (Sz : sized dirs vs) by (intros x Hx; repeat destruct Hx as [<-|Hx]; try reflexivity; contradiction).
  assert (F : in_front (dominated_by dirs) vs v).
  { split; [right; right; right; left; reflexivity|]. intros y Hy D. unfold dominated_by in D. apply (pareto_exact dirs v y eq_refl) in D; [|exact (Sz y Hy)]. repeat destruct Hy as [<-|Hy]; try contradiction; vm_compute in D; discriminate. }
  destruct (quad_offer dirs 100 nothing vs) as [[bs q]| | |] eqn:E; try (vm_compute in E; discriminate).
  assert (N : forall m, In m (members q) -> ~ equal_vectors v m).
  { intros m Hm G. apply same_vector_exact in G; [|destruct G; assumption]. assert (Em : members q = match quad_offer dirs 100 nothing vs with Ok (_, q) => members q | _ => [] end) by (rewrite E; reflexivity). rewrite Em in Hm. vm_compute in Hm.
    repeat destruct Hm as [<-|Hm]; try contradiction; vm_compute in G; discriminate. }
  exists vs, v, bs, q. split; [exact Sz|]. split; [exact E|]. split; [exact F|]. split; [exact N|]. intros (_ & _ & R). destruct (R v F) as (m & Hm & G). exact (N m Hm G).
Qed.
(** moeoIndexedArchive over the quad tree: two objectives, the position recorded is one too small *)
Theorem C148_indexed_quad_refuted : exists vs v w b arch q, let dirs := [true; true] in sized dirs vs /\
  indexed_add_pop quad (quad_insert 0 0 dirs 100) (quad_update 0 0 dirs 100) ([], nothing) vs = Ok (b, (arch, q)) /\
  in_front (dominated_by dirs) vs v /\ (forall m, In m arch -> ~ equal_vectors v m) /\ In w arch /\ ~ in_front (dominated_by dirs) vs w.
Proof.
  set (dirs := [true; true]). set (vs := [[1; 5]; [5; 1]; [4; 0]]%Q). set (v := [1; 5]%Q). set (w := [5; 1]%Q).
  assert (Sz : sized dirs vs) by (intros x Hx; repeat destruct Hx as [<-|Hx]; try reflexivity; contradiction).
  destruct (indexed_add_pop quad (quad_insert 0 0 dirs 100) (quad_update 0 0 dirs 100) ([], nothing) vs) as [[b [arch q]]| | |] eqn:E; try (vm_compute in E; discriminate).
  assert (Ea : arch = [[5; 1]; [4; 0]]%Q). { assert (Em : arch = match indexed_add_pop quad (quad_insert 0 0 dirs 100) (quad_update 0 0 dirs 100) ([], nothing) vs with Ok (_, (a, _)) => a | _ => [] end) by (rewrite E; reflexivity). rewrite Em. vm_compute. reflexivity. }
  exists vs, v, w, b, arch, q. cbv zeta. fold dirs. split; [exact Sz|]. split; [exact E|]. split; [|split; [|split]].
  - split; [left; reflexivity|]. intros y Hy D. unfold dominated_by in D. apply (pareto_exact dirs v y eq_refl) in D; [|exact (Sz y Hy)]. repeat destruct Hy as [<-|Hy]; try contradiction; vm_compute in D; discriminate.
  - subst arch. intros m Hm G. apply same_vector_exact in G; [|destruct G; assumption]. repeat destruct Hm as [<-|Hm]; try contradiction; vm_compute in G; discriminate.
  - subst arch. left. reflexivity.
  - intros [_ H]. apply (H [4; 0]%Q); [right; right; left; reflexivity|]. unfold dominated_by. apply (pareto_exact dirs w [4; 0]%Q eq_refl eq_refl). vm_compute. reflexivity.
Qed.
(** moeoIndexedArchive over the quick index: a deleted vector comes back into the index, and later a write outside of the archive *)
Theorem C148_indexed_quick_refuted : exists vs, let dirs := [true; true] in sized dirs vs /\
  indexed_add_pop quick (fun l v => Ok (quick_insert 0 dirs true l v)) (quick_update dirs) ([], []) vs = UB.
Proof.
  exists ([[2; 2]; [1; 1]; [0; 4]; [0; 3]]%Q). cbv zeta. split; [|vm_compute; reflexivity]. intros x Hx; repeat destruct Hx as [<-|Hx]; try reflexivity; contradiction.
Qed.
Theorem C148_ghost_refuted : exists vs, let dirs := [true; true] in sized dirs vs /\
  match indexed_add_pop quick (fun l v => Ok (quick_insert 0 dirs true l v)) (quick_update dirs) ([], []) vs with
  | Ok (_, (arch, l)) => ~ (forall v, In v (vectors l) <-> In v arch)
  | _ => False
  end.
Proof.
  exists ([[2; 2]; [1; 1]]%Q). cbv zeta. split; [intros x Hx; repeat destruct Hx as [<-|Hx]; try reflexivity; contradiction|]. vm_compute. intros H. destruct (proj1 (H [2; 2]%Q)) as [G|[]]; [right; left; reflexivity|discriminate].
Qed.
(** the quad tree compares with 1e-6, the vectors with their own tolerance: a vector that nothing dominates is refused *)
Theorem C148_precision_refuted : exists v w, let dirs := [true; true] in sized dirs [v; w] /\ in_front (dominated_by dirs) [v; w] w /\
  match offer (quad_insert 0 (1 # 1000000) dirs 100) nothing [v; w] with Ok (bs, q) => bs = [true; false] /\ members q = [v] | _ => False end.
Proof.
  exists [1; 1]%Q, [1 - (1 # 2000000); 2]%Q. cbv zeta. split; [intros x Hx; repeat destruct Hx as [<-|Hx]; try reflexivity; contradiction|]. split; [|vm_compute; auto].
  split; [right; left; reflexivity|]. intros y Hy D. unfold dominated_by in D. apply pareto_exact in D; [|reflexivity|destruct Hy as [<-|[<-|[]]]; reflexivity]. destruct Hy as [<-|[<-|[]]]; vm_compute in D; discriminate.
Qed.
(** moeoQuadTreeArchive keeps nothing *)
Theorem C148_quadtree_archive_refuted : forall vs, fold_left (fun a v => snd (quadtree_archive_add a v)) vs [] = [].
Proof. induction vs as [|v vs IH]; [reflexivity|exact IH]. Qed.
Print Assumptions C147_quick_front.
Print Assumptions C147_quick_answers.
Print Assumptions C147_quick_ask.
Print Assumptions C147_quad_front.
Print Assumptions C147_quad_antichain.
Print Assumptions C147_quad_answers.
Print Assumptions C148_quad_three_refuted.
Print Assumptions C148_indexed_quad_refuted.
Print Assumptions C148_indexed_quick_refuted.
Print Assumptions C148_ghost_refuted.
Print Assumptions C148_precision_refuted.
Print Assumptions C148_quadtree_archive_refuted.
