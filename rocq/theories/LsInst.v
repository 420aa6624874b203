(** The neighborhoods of mo meet the contract the local searches rely on. *)
From Coq Require Import List Arith Bool Lia Permutation.
From Verif Require Import Outcome Lib NeighModel NeighSpec NeighProofs LsModel LsSpec DomModel DomSpec DomProofs.
Import ListNotations.
Open Scope nat_scope.

(** moFullEvalByCopy::operator() (mo/src/eval/moFullEvalByCopy.h:62-73) *)
Definition eval_by_copy {G F I} (full : G -> F) (move : I -> G -> res G) (s : sol G F) (i : I) : res F :=
  let! g := move i (geno s) in Ok (full g).
Lemma copy_moves {G F I} (Sp : G -> Prop) nbrs (full : G -> F) (move : I -> G -> res G) :
  (forall g i, Sp g -> In i (nbrs g) -> exists g', move i g = Ok g' /\ Sp g') -> moves_ok Sp nbrs full (eval_by_copy full move) move.
Proof. intros H g i HS Hi. destruct (H g i HS Hi) as (g' & E & HS'). exists g'. unfold eval_by_copy. cbn. rewrite E. auto. Qed.

Lemma continue_mono {S I} (it : iterator S I) : forall k k' s ds r, continue it k s ds = Ok r -> k <= k' -> continue it k' s ds = Ok r.
Proof.
  induction k as [|k IH]; intros k' s ds r H Hk; destruct k' as [|k']; try lia; cbn [continue] in *; destruct (i_cont it s); auto; try discriminate.
  apply rbind_ok in H as ([[s1 x] ds1] & E & H). apply rbind_ok in H as ([[xs s2] ds2] & E2 & H). rewrite E. cbn [rbind]. rewrite (IH k' _ _ _ E2) by lia. auto.
Qed.
Lemma explore_mono {S I} (it : iterator S I) k k' s ds r : explore it k s ds = Ok r -> k <= k' -> explore it k' s ds = Ok r.
Proof.
  intros H Hk. unfold explore in *. apply rbind_ok in H as ([[s1 x] ds1] & E & H). apply rbind_ok in H as ([[xs s2] ds2] & E2 & H).
  rewrite E. cbn [rbind]. rewrite (continue_mono _ _ k' _ _ _ E2 Hk). auto.
Qed.
Lemma explore_det {S I} (it : iterator S I) k k' s ds r r' : explore it k s ds = Ok r -> explore it k' s ds = Ok r' -> r = r'.
Proof.
  intros H H'. apply explore_mono with (k' := Nat.max k k') in H; [|lia]. apply explore_mono with (k' := Nat.max k k') in H'; [|lia]. congruence.
Qed.

(** moOrderNeighborhood *)
Theorem order_ok {G} (Sp : G -> Prop) n : neighborhood_ok Sp (fun _ => seq 0 n) (fun _ => 0 <? n) (fun _ => order_nh n) (fun _ => True) (fun _ cur => cur < n) n 0.
Proof.
  constructor; auto.
  - intros g _. destruct n; cbn; split; congruence.
  - intros g s ds s' i ds' _ H _ E. cbn in E. injection E as <- <- <-. apply Nat.ltb_lt in H. split; auto. split; auto. apply in_seq. lia.
  - intros g s ds s' i ds' _ HP Hc E. cbn in *. injection E as <- <- <-. destruct (Nat.eqb_spec n 0); [lia|]. apply Nat.ltb_lt in Hc. split; [lia|]. split; auto. apply in_seq. lia.
  - intros k g s ds l s' ds' _ H _ E. apply Nat.ltb_lt in H. pose proof (order_explores n s ds H) as E2. pose proof (explore_det _ _ _ _ _ _ _ E E2) as E3. injection E3 as -> _ _. intros i Hi. auto.
  - intros g s ds _ H _ _. apply Nat.ltb_lt in H. rewrite order_explores by auto. do 3 eexists. split; [reflexivity|]. lia.
Qed.

(** moRndWithoutReplNeighborhood *)
Lemma wr_continue_sound n : forall k s ds l s' ds', wr_ok n s -> continue (without_repl_nh n) k s ds = Ok (l, s', ds') -> Permutation l (firstn (maxIndex s) (indexVector s)).
Proof.
  induction k as [|k IH]; intros s ds l s' ds' W E; cbn [continue] in E; cbn [without_repl_nh i_cont i_next] in E; destruct (Nat.ltb_spec 0 (maxIndex s)) as [H|H]; try discriminate.
  1,3: injection E as <- <- <-; replace (maxIndex s) with 0 by lia; constructor.
  apply rbind_ok in E as ([[s1 x] ds1] & E & E1). apply rbind_ok in E1 as ([[xs s2] ds2] & E1 & E2). injection E2 as <- <- <-.
  destruct ds as [|d ds]; [unfold wr_draw in E; destruct (maxIndex s); discriminate|]. destruct (wr_draw_ok n s d ds W H) as (s3 & key & E3 & W3 & M3 & _ & _ & P3).
  rewrite E3 in E. injection E as <- <- <-. specialize (IH _ _ _ _ _ W3 E1). eapply Permutation_trans; [apply perm_skip, IH|]. apply Permutation_sym. auto.
Qed.
Lemma wr_init_ok n (s : wr_state) : Permutation (indexVector s) (seq 0 n) -> wr_ok n {| maxIndex := n; indexVector := indexVector s |}.
Proof. intros P. split; cbn; auto. Qed.
Lemma wr_draw_inv n s ds s' i ds' : wr_ok n s -> 0 < maxIndex s -> wr_draw s ds = Ok (s', i, ds') ->
  wr_ok n s' /\ i < n /\ length ds = Datatypes.S (length ds') /\ Permutation (firstn (maxIndex s) (indexVector s)) (i :: firstn (maxIndex s') (indexVector s')).
Proof.
  intros W H E. destruct ds as [|d ds]; [unfold wr_draw in E; destruct (maxIndex s); discriminate|]. destruct (wr_draw_ok n s d ds W H) as (s3 & key & E3 & W3 & M3 & K3 & _ & P3).
  rewrite E3 in E. injection E as <- <- <-. split; auto. split; [|split; auto]. apply nth_error_In in K3. destruct W as [P _]. apply (Permutation_in _ P) in K3. apply in_seq in K3. lia.
Qed.
Lemma wr_continue_total n : forall k s ds, wr_ok n s -> maxIndex s <= k -> maxIndex s <= length ds ->
  exists l s' ds', continue (without_repl_nh n) k s ds = Ok (l, s', ds') /\ length ds = maxIndex s + length ds'.
Proof.
  induction k as [|k IH]; intros s ds W Hk Hd; cbn [continue]; cbn [without_repl_nh i_cont i_next]; destruct (Nat.ltb_spec 0 (maxIndex s)) as [H|H]; try lia.
  1,3: do 3 eexists; split; [reflexivity|lia].
  destruct ds as [|d ds]; [cbn in Hd; lia|]. cbn in Hd. destruct (wr_draw_ok n s d ds W H) as (s3 & key & E3 & W3 & M3 & _). rewrite E3. cbn [rbind]. fold (without_repl_nh n).
  destruct (IH s3 ds W3) as (l & s' & ds' & E & L); try lia. rewrite E. cbn [rbind]. do 3 eexists. split; [reflexivity|]. cbn. lia.
Qed.
Theorem without_repl_ok {G} (Sp : G -> Prop) n :
  neighborhood_ok Sp (fun _ => seq 0 n) (fun _ => 0 <? n) (fun _ => without_repl_nh n) (fun s => Permutation (indexVector s) (seq 0 n)) (fun _ => wr_ok n) n n.
Proof.
  constructor.
  - intros g _. destruct n; cbn; split; congruence.
  - intros g s ds s' i ds' _ H P E. apply Nat.ltb_lt in H. cbn [without_repl_nh i_init] in E. destruct (wr_draw_inv n _ _ _ _ _ (wr_init_ok n s P) H E) as (A & B & D & _). split; auto. split; [apply in_seq; lia|lia].
  - intros g s ds s' i ds' _ W Hc E. cbn [without_repl_nh i_cont i_next] in *. apply Nat.ltb_lt in Hc. destruct (wr_draw_inv n _ _ _ _ _ W Hc E) as (A & B & D & _). split; auto. split; [apply in_seq; lia|lia].
  - intros g s _ [P _]. auto.
  - intros k g s ds l s' ds' _ H P E. apply Nat.ltb_lt in H. unfold explore in E. apply rbind_ok in E as ([[s1 x] ds1] & E & E1). apply rbind_ok in E1 as ([[xs s2] ds2] & E1 & E2). injection E2 as <- <- <-.
    cbn [without_repl_nh i_init] in E. destruct (wr_draw_inv n _ _ _ _ _ (wr_init_ok n s P) H E) as (A & _ & _ & Q). apply (wr_continue_sound n) in E1; auto. cbn [maxIndex indexVector] in Q.
    intros i Hi. apply (Permutation_in (l := seq 0 n)); auto. eapply Permutation_trans; [|apply perm_skip, Permutation_sym, E1]. eapply Permutation_trans; [|apply Q].
    rewrite firstn_all2 by (rewrite (Permutation_length P), seq_length; lia). apply Permutation_sym; auto.
  - intros g s ds _ H P Hd. apply Nat.ltb_lt in H. unfold explore. cbn [without_repl_nh i_init]. fold (without_repl_nh n). destruct ds as [|d ds]; [cbn in Hd; lia|]. cbn in Hd.
    destruct (wr_draw_ok n _ d ds (wr_init_ok n s P) H) as (s3 & key & E3 & W3 & M3 & _). rewrite E3. cbn [rbind]. cbn [maxIndex] in M3.
    destruct (wr_continue_total n n s3 ds W3) as (l & s' & ds' & E & L); try lia. rewrite E. cbn [rbind]. do 3 eexists. split; [reflexivity|]. cbn. lia.
Qed.

(** moSwapNeighborhood and moTwoOptExNeighborhood on solutions of [n] elements *)
Theorem pairs_ok {A} (Sp : list A -> Prop) n : (forall g, Sp g -> length g = n) ->
  neighborhood_ok Sp (fun g => pairs (length g)) (fun g => 1 <? length g) (fun g => pairs_nh (length g)) (fun _ => True) (fun g s => fst s < snd s < length g) (n * n) 0.
Proof.
  intros HL. constructor; auto.
  - intros g HS. destruct (Nat.ltb_spec 1 (length g)) as [H|H]; split; auto; try congruence.
    + intros _ E. assert (H1 : In (0, 1) (pairs (length g))) by (apply pairs_In; lia). rewrite E in H1. destruct H1.
    + intros E. destruct (pairs (length g)) as [|[i j] l] eqn:Ep; [congruence|]. assert (H1 : In (i, j) (pairs (length g))) by (rewrite Ep; left; auto). apply pairs_In in H1. lia.
  - intros g s ds s' i ds' HS H _ E. apply Nat.ltb_lt in H. cbn in E. injection E as <- <- <-. cbn. split; [lia|]. split; auto. apply pairs_In. lia.
  - intros g [i j] ds s' x ds' HS HP Hc E. cbn [pairs_nh i_cont i_next fst snd] in *.
    assert (Hn : ~ (i = length g - 2 /\ j = length g - 1)).
    { intros [-> ->]. rewrite !Nat.eqb_refl in Hc. discriminate. }
    destruct (Nat.eqb_spec j (length g - 1)); injection E as <- <- <-; cbn [fst snd]; (split; [lia|]; split; auto; apply pairs_In; lia).
  - intros k g s ds l s' ds' HS H _ E. apply Nat.ltb_lt in H. destruct (pairs_explores (length g) s ds ltac:(lia)) as (l2 & s2 & E2 & _ & P2).
    pose proof (explore_det _ _ _ _ _ _ _ E E2) as E3. injection E3 as -> _ _. intros [i j] Hi. apply P2. apply pairs_In in Hi. auto.
  - intros g s ds HS H _ _. apply Nat.ltb_lt in H. destruct (pairs_explores (length g) s ds ltac:(lia)) as (l2 & s2 & E2 & _). rewrite (HL g HS) in E2 |- *. do 3 eexists. split; [exact E2|lia].
Qed.

(** the moves *)
Theorem bit_moves_ok {F} (full : list bool -> F) n :
  moves_ok (fun g => length g = n) (fun _ => seq 0 n) full (eval_by_copy full bit_move) bit_move.
Proof. apply copy_moves. intros g i L Hi. apply in_seq in Hi. destruct (bit_move_ok i g) as (g' & E & L' & _); [lia|]. exists g'. split; auto. lia. Qed.
Theorem swap_moves_ok {A F} (full : list A -> F) p :
  moves_ok (fun g => Permutation g p) (fun g => pairs (length g)) full (eval_by_copy full (swap_move A)) (swap_move A).
Proof.
  apply copy_moves. intros g [i j] P Hi. apply pairs_In in Hi. destruct (swap_move_ok i j g) as (g' & E & _ & P' & _); try lia. exists g'. split; auto. eapply Permutation_trans; eauto.
Qed.
Theorem two_opt_moves_ok {A F} (full : list A -> F) p :
  moves_ok (fun g => Permutation g p) (fun g => pairs (length g)) full (eval_by_copy full (two_opt_move A)) (two_opt_move A).
Proof.
  apply copy_moves. intros g [i j] P Hi. apply pairs_In in Hi. destruct (two_opt_move_ok i j g) as (g' & E & _ & P' & _); try lia. exists g'. split; auto. eapply Permutation_trans; eauto.
Qed.

(** all the words of [n] letters *)
Fixpoint words {A} (n : nat) (l : list A) : list (list A) :=
  match n with 0 => [[]] | Datatypes.S m => flat_map (fun a => map (cons a) (words m l)) l end.
Lemma words_In {A} (l : list A) : forall n g, length g = n -> incl g l -> In g (words n l).
Proof.
  induction n as [|n IH]; intros g L H; destruct g as [|a g]; try discriminate; [left; auto|]. cbn. apply in_flat_map. exists a.
  split; [apply H; left; auto|]. apply in_map, IH; [cbn in L; lia|]. intros b Hb. apply H. right. auto.
Qed.
