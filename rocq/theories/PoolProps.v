(** C175 and C176: the memory pool of the parse trees. *)
From Coq Require Import List Arith Lia Bool Permutation.
From Verif Require Import Lib Outcome PoolModel PoolSpec PoolProofs.
From Coq Require Import List.
Import ListNotations.

(** C175: whatever a program allocates, gives back and writes in the blocks it holds, no call is undefined; the blocks it
    holds are as large as asked, lie in the chunks of the pool and do not overlap *)
Theorem C175_blocks_never_overlap : forall sz l, sz <= chunk_size -> exists p held, run sz l = Ok (p, held) /\ sz <= esize p /\
  pairwise_apart (esize p) held /\ forall a, In a held -> within (esize p) chunk_size (chunks p) a.
Proof.
  intros sz l H. destruct (run_ok sz l H) as (p & held & fl & E & I' & Ee). exists p, held. split; auto. split; [lia|]. destruct (held_ok p held fl I') as [A B]. split; auto. intros a Ha. apply B; auto.
Qed.
Example C175_blocks_case : 4000 <= chunk_size /\ (let! (p, held) := run 4000 [Alloc; Alloc; Free 1; Touch 0 17; Alloc; Alloc; Free 2; Free 0; Alloc; Alloc] in Ok (held, chunks p)) = Ok ([(0, 4000); (1, 0); (0, 0)], [1; 0]).
Proof. split; [unfold chunk_size; lia|]. vm_compute. reflexivity. Qed.
(** a chunk is asked for only when the program holds every block of the ones there are: no block is lost *)
Theorem C175_no_block_is_lost : forall sz l p held, sz <= chunk_size -> run sz l = Ok (p, held) -> exists p' b, run sz (l ++ [Alloc]) = Ok (p', b :: held) /\
  ((length held < length (chunks p) * (chunk_size / esize p) /\ chunks p' = chunks p) \/
   (length held = length (chunks p) * (chunk_size / esize p) /\ chunks p' = length (chunks p) :: chunks p)).
Proof.
  intros sz l p held H E. destruct (run_ok sz l H) as (p0 & held0 & fl & E0 & I' & Ee). rewrite E0 in E. injection E as -> ->.
  destruct (allocate_ok p held fl I') as (b & p' & fl' & Ea & I2 & Ee' & C). exists p', b. split; [unfold run; rewrite acts_app; fold (run sz l); rewrite E0; cbn [rbind acts act]; rewrite Ea; reflexivity|].
  pose proof (i_len _ _ _ I') as L. rewrite app_length in L. fold (nelem p). destruct C as [[Hne Hc]|[Hne Hc]]; [left|right]; split; auto; [destruct fl; [congruence|cbn in L; lia]|subst; cbn in L; lia].
Qed.
(** the destructor frees each chunk once *)
Theorem C175_destructor_frees_every_chunk : forall sz l p held, sz <= chunk_size -> run sz l = Ok (p, held) -> NoDup (destroy p) /\ forall a, In a held -> In (fst a) (destroy p).
Proof.
  intros sz l p held H E. destruct (run_ok sz l H) as (p0 & held0 & fl & E0 & I' & Ee). rewrite E0 in E. injection E as -> ->. split; [apply I'|]. intros a Ha. destruct (held_ok p held fl I') as [_ B]. apply B in Ha as [[W _] _]. exact W.
Qed.
(** blocks of a multiple of 8 bytes start at multiples of 8 *)
Theorem C175_alignment : forall sz l p held a, sz <= chunk_size -> Nat.divide 8 sz -> run sz l = Ok (p, held) -> In a held -> Nat.divide 8 (snd a).
Proof.
  intros sz l p held a H [q Hq] E Ha. destruct (run_ok sz l H) as (p0 & held0 & fl & E0 & I' & Ee). rewrite E0 in E. injection E as -> ->. destruct (held_ok p held fl I') as [_ B]. apply B in Ha as [_ (k & ->)].
  rewrite Ee. destruct (Nat.max_spec 8 sz) as [[_ ->]|[_ ->]]; [exists (k * q); lia|exists k; lia].
Qed.
(** the children of a node: as many are built as are destroyed, each at its own position, in a block of the same pool *)
Theorem C175_children : forall arity, NoDup (snd (tree_allocate arity)) /\ (forall i, In i (snd (tree_allocate arity)) <-> i < arity) /\
  fst (tree_deallocate arity) = fst (tree_allocate arity) /\ Permutation (snd (tree_deallocate arity)) (snd (tree_allocate arity)).
Proof.
  intros arity. destruct arity as [|[|[|[|n]]]]; cbn [tree_allocate tree_deallocate fst snd].
  - repeat split; auto; try constructor; cbn; lia.
  - repeat split; auto; [repeat constructor; cbn; lia|cbn; lia|cbn; lia].
  - repeat split; auto; [repeat constructor; cbn; lia|cbn; lia|cbn; lia|apply perm_swap].
  - repeat split; auto; [repeat constructor; cbn; lia|cbn; lia|cbn; lia|apply (Permutation_sym (Permutation_rev [0; 1; 2]))].
  - split; [apply seq_NoDup|]. split; [intros i; rewrite in_seq; lia|]. split; auto. apply Permutation_sym, Permutation_rev.
Qed.

(** C176 refuted: an element larger than a chunk is written before its array *)
Theorem C176_large_elements_refuted : forall sz l, chunk_size < sz -> run sz (Alloc :: l) = UB.
Proof.
  intros sz l H. assert (8 <= chunk_size) by (unfold chunk_size; lia). unfold run, new_pool. rewrite (proj2 (Nat.ltb_ge sz 8)) by lia. cbn [acts act]. unfold allocate. cbn [hd_free]. unfold grow. cbn [esize chunks].
  rewrite Nat.div_small by auto. reflexivity.
Qed.
(** an element whose size is not a multiple of 8 puts links at addresses that are not (the array itself starts 8 bytes after
    the start of the chunk) *)
Theorem C176_misaligned_refuted : exists sz l p held a, sz <= chunk_size /\ run sz l = Ok (p, held) /\ In a held /\ ~ Nat.divide 8 (snd a).
Proof.
  exists 12, [Alloc; Alloc]. destruct (run_ok 12 [Alloc; Alloc]) as (p & held & fl & E & _); [unfold chunk_size; lia|]. exists p, held, (0, 12). split; [unfold chunk_size; lia|]. split; auto. split; [|intros [z Hz]; cbn in Hz; lia].
  assert (Eh : match run 12 [Alloc; Alloc] with Ok (_, h) => h | _ => [] end = [(0, 12); (0, 0)]) by (vm_compute; reflexivity). rewrite E in Eh. subst. cbn. auto.
Qed.
(** copying three children builds the second one twice and never the third *)
Theorem C176_third_child_refuted : ~ In 2 (map fst (snd (tree_construct 3))) /\ In (1, 1) (snd (tree_construct 3)) /\ In (1, 2) (snd (tree_construct 3)) /\ In 2 (snd (tree_deallocate 3)).
Proof. cbn. repeat split; auto. intuition congruence. Qed.
Print Assumptions C175_blocks_never_overlap.
Print Assumptions C175_no_block_is_lost.
Print Assumptions C175_destructor_frees_every_chunk.
Print Assumptions C175_alignment.
Print Assumptions C175_children.
Print Assumptions C176_large_elements_refuted.
Print Assumptions C176_misaligned_refuted.
Print Assumptions C176_third_child_refuted.
