(** Proofs about parallel scheduling (C28, C29). *)
From Coq Require Import List Arith Lia Bool Permutation.
From Verif Require Import Outcome Lib SchedModel SchedSpec.
Import ListNotations.

(** ** Linear *)
Lemma seq_map_shift a per : map (fun j => a + j) (seq 0 per) = seq a per.
Proof.
  revert a. induction per as [|per IH]; intros a; cbn [seq map]; auto. f_equal; [lia|].
  rewrite <- seq_shift, map_map. rewrite <- (IH (S a)). apply map_ext. intros; lia.
Qed.
Lemma fill_even_concat per : forall packages s, concat (map (fun i => map (fun j => i * per + j) (seq 0 per)) (seq s packages)) = seq (s * per) (packages * per).
Proof.
  induction packages as [|k IH]; intros s; cbn [seq map concat]; auto.
  rewrite seq_map_shift, IH. replace (S k * per) with (per + k * per) by lia. rewrite seq_app. f_equal. f_equal. lia.
Qed.
Lemma fold_const {A B} (f : B -> A) (l : list B) a x : fold_left (fun _ j => f j) (l ++ [x]) a = f x.
Proof. rewrite fold_left_app. reflexivity. Qed.
Lemma last_index_spec packages per : 0 < per -> 0 < packages -> last_index packages per = packages * per - 1.
Proof.
  intros Hp Hk. unfold last_index. destruct packages as [|k]; [lia|].
  rewrite seq_S, fold_left_app. cbn [fold_left]. destruct per as [|p]; [lia|].
  rewrite seq_S at 1. rewrite fold_const. lia.
Qed.
Lemma push_spec ps i x : i < length ps ->
  exists ps', push ps i x = Some ps' /\ length ps' = length ps /\
  forall j, nth_error ps' j = option_map (fun p => p ++ if j =? i then [x] else []) (nth_error ps j).
Proof.
  intros Hi. unfold push. destruct (nth_error ps i) as [p|] eqn:E; [|apply nth_error_None in E; lia].
  cbn [obind]. rewrite upd_set by auto. eexists. split; [reflexivity|]. split; [apply set_length|].
  intros j. destruct (Nat.eqb_spec j i) as [->|Hj].
  - rewrite nth_error_set_eq by auto. rewrite E. reflexivity.
  - rewrite nth_error_set_neq by auto. destruct (nth_error ps j); cbn; [rewrite app_nil_r|]; auto.
Qed.
Lemma push_rest_spec ind : forall k a ps, a + k <= length ps ->
  exists ps', push_rest ps ind (seq a k) = Ok ps' /\ length ps' = length ps /\
  forall j, nth_error ps' j = option_map (fun p => p ++ if (a <=? j) && (j <? a + k) then [ind + j] else []) (nth_error ps j).
Proof.
  induction k as [|k IH]; intros a ps H; cbn [seq push_rest].
  - exists ps. split; auto. split; auto. intros j.
    replace ((a <=? j) && (j <? a + 0)) with false.
    + destruct (nth_error ps j); cbn; [rewrite app_nil_r|]; auto.
    + symmetry. apply andb_false_iff. rewrite Nat.leb_gt, Nat.ltb_ge. lia.
  - destruct (push_spec ps a (ind + a)) as (ps1 & E1 & L1 & N1); [lia|]. rewrite E1. cbn [of_opt rbind].
    destruct (IH (S a) ps1) as (ps' & E2 & L2 & N2); [lia|]. exists ps'. split; auto. split; [lia|].
    intros j. rewrite N2, N1. destruct (nth_error ps j) as [p|]; cbn [option_map]; auto. f_equal. rewrite <- app_assoc. f_equal.
    destruct (Nat.eqb_spec j a) as [->|Hj].
    + replace (S a <=? a) with false by (symmetry; apply Nat.leb_gt; lia).
      replace (a <=? a) with true by (symmetry; apply Nat.leb_le; lia).
      replace (a <? a + S k) with true by (symmetry; apply Nat.ltb_lt; lia). reflexivity.
    + cbn [app]. replace (a <=? j) with (S a <=? j).
      * replace (a + S k) with (S a + k) by lia. reflexivity.
      * apply eq_true_iff_eq. rewrite !Nat.leb_le. lia.
Qed.
Lemma linear_shape n w ps : linear_packages n w = Ok ps ->
  0 < w /\ ps = map (fun i => map (fun j => i * (n / w) + j) (seq 0 (n / w)) ++ if i <? n mod w then [w * (n / w) + i] else []) (seq 0 w).
Proof.
  unfold linear_packages. destruct (Nat.eqb_spec w 0) as [->|Hw]; [discriminate|]. intros H. split; [lia|].
  pose proof (Nat.mod_upper_bound n w Hw) as Hm. cbv zeta in H.
  set (per := n / w) in *. set (r := n mod w) in *.
  set (ind := if per =? 0 then last_index w per else last_index w per + 1) in *.
  destruct (push_rest_spec ind r 0 (fill_even w per)) as (ps' & E & L & N).
  { unfold fill_even. rewrite map_length, seq_length. lia. }
  rewrite E in H. assert (ps' = ps) as -> by congruence. clear H E.
  assert (Hind : ind = w * per).
  { unfold ind. destruct (Nat.eqb_spec per 0) as [->|Hp].
    - rewrite Nat.mul_0_r. unfold last_index. cbn [seq]. clear. generalize (seq 0 w). induction l; auto.
    - rewrite last_index_spec by lia. enough (0 < w * per) by lia. apply Nat.mul_pos_pos; lia. }
  rewrite Hind in N. apply nth_error_ext. intros j. rewrite N. unfold fill_even.
  rewrite !nth_error_map. destruct (nth_error (seq 0 w) j) as [i|] eqn:Ej; cbn [option_map]; auto.
  assert (i = j) as ->.
  { pose proof Ej as Ej'. apply nth_error_lt in Ej'. rewrite seq_length in Ej'.
    apply nth_error_nth with (d := 0) in Ej. rewrite seq_nth in Ej by lia. lia. }
  reflexivity.
Qed.
Lemma concat_app_perm {A B} (f g : B -> list A) l :
  Permutation (concat (map (fun i => f i ++ g i) l)) (concat (map f l) ++ concat (map g l)).
Proof.
  induction l as [|x l IH]; cbn [map concat]; auto. rewrite IH, <- !app_assoc. apply Permutation_app_head.
  rewrite !app_assoc. apply Permutation_app_tail. apply Permutation_app_comm.
Qed.
Lemma concat_rest base r : forall k s, s + k = s + k -> concat (map (fun i => if i <? r then [base + i] else []) (seq s k)) = seq (base + s) (Nat.min (r - s) k).
Proof.
  induction k as [|k IH]; intros s _; cbn [seq map concat]; [rewrite Nat.min_0_r; auto|].
  rewrite IH by auto. destruct (Nat.ltb_spec s r) as [H|H].
  - replace (Nat.min (r - s) (S k)) with (S (Nat.min (r - S s) k)) by lia. cbn [app seq]. f_equal. f_equal. lia.
  - replace (r - s) with 0 by lia. replace (r - S s) with 0 by lia. reflexivity.
Qed.
Lemma linear_once n w ps : linear_packages n w = Ok ps -> each_once n (concat ps).
Proof.
  intros H. apply linear_shape in H as [Hw ->]. unfold each_once. rewrite concat_app_perm.
  rewrite fill_even_concat, concat_rest by auto.
  pose proof (Nat.mod_upper_bound n w). rewrite Nat.min_l by lia. rewrite Nat.sub_0_r, Nat.add_0_r. cbn [Nat.mul].
  change (seq (w * (n / w)) (n mod w)) with (seq (0 + w * (n / w)) (n mod w)). rewrite <- seq_app, <- Nat.div_mod by lia. reflexivity.
Qed.
Lemma linear_total n w : 0 < w -> exists ps, linear_packages n w = Ok ps.
Proof.
  intros Hw. unfold linear_packages. destruct (Nat.eqb_spec w 0); [lia|]. cbv zeta.
  destruct (push_rest_spec (if n / w =? 0 then last_index w (n / w) else last_index w (n / w) + 1) (n mod w) 0 (fill_even w (n / w))) as (ps & E & _); [|eauto].
  unfold fill_even. rewrite map_length, seq_length. pose proof (Nat.mod_upper_bound n w). lia.
Qed.
Lemma linear_sizes n w ps : linear_packages n w = Ok ps ->
  length ps = w /\ forall p, In p ps -> length p = n / w \/ length p = S (n / w).
Proof.
  intros H. apply linear_shape in H as [Hw ->]. rewrite map_length, seq_length. split; auto.
  intros p Hp. apply in_map_iff in Hp as (i & <- & _). rewrite app_length, map_length, seq_length.
  destruct (i <? n mod w); cbn; lia.
Qed.
(** the order of application does not matter *)
Lemma interleaving_perm {A} (ls : list (list A)) l : interleaving ls l -> Permutation l (concat ls).
Proof.
  induction 1 as [ls H|ls1 x l ls2 r H IH].
  - replace (concat ls) with (@nil A); auto. induction H as [|y l -> _ IH]; auto.
  - rewrite IH, !concat_app. cbn [concat app]. apply Permutation_middle.
Qed.
Lemma apply_seq_spec {A} (f : A -> A) : forall order pop, NoDup order -> Forall (fun i => i < length pop) order ->
  exists pop', apply_seq f order pop = Some pop' /\ length pop' = length pop /\
  forall i, nth_error pop' i = if in_dec Nat.eq_dec i order then option_map f (nth_error pop i) else nth_error pop i.
Proof.
  induction order as [|i order IH]; intros pop Hn Hf; cbn [apply_seq].
  - exists pop. auto.
  - inversion Hn as [|? ? Hi Hn']; inversion Hf as [|? ? Hl Hf']; subst. unfold apply_at.
    destruct (nth_error pop i) as [x|] eqn:E; [|apply nth_error_None in E; lia]. cbn [obind].
    rewrite upd_set by auto. cbn [obind].
    destruct (IH (set pop i (f x))) as (pop' & E' & L & N); auto.
    { eapply Forall_impl; [|exact Hf']. intros a Ha. rewrite set_length. auto. }
    rewrite set_length in L. exists pop'. split; auto. split; auto. intros j. rewrite N.
    destruct (Nat.eq_dec i j) as [<-|Hj].
    + destruct (in_dec Nat.eq_dec i order); [contradiction|]. rewrite nth_error_set_eq by auto.
      destruct (in_dec Nat.eq_dec i (i :: order)) as [_|X]; [rewrite E; auto|destruct X; left; auto].
    + rewrite nth_error_set_neq by auto. destruct (in_dec Nat.eq_dec j order), (in_dec Nat.eq_dec j (i :: order)); auto.
      * destruct n; right; auto.
      * destruct i0; [contradiction|contradiction].
Qed.
Lemma apply_once {A} (f : A -> A) order pop : each_once (length pop) order -> apply_seq f order pop = Some (map f pop).
Proof.
  intros H. unfold each_once in H.
  destruct (apply_seq_spec f order pop) as (pop' & E & L & N).
  - apply Permutation_NoDup with (seq 0 (length pop)); [symmetry; auto|apply seq_NoDup].
  - apply Forall_forall. intros i Hi. apply (Permutation_in _ H) in Hi. apply in_seq in Hi. lia.
  - rewrite E. f_equal. apply nth_error_ext. intros i. rewrite N, nth_error_map.
    destruct (in_dec Nat.eq_dec i order) as [_|X]; auto.
    destruct (nth_error pop i) eqn:Ei; auto. destruct X. apply (Permutation_in _ (Permutation_sym H)). apply in_seq.
    apply nth_error_lt in Ei. lia.
Qed.
