(** Proofs for C213-C215. *)
From Coq Require Import Arith QArith Bool Lia Lqa.
From Verif Require Import Lib Outcome ParetoModel ParetoSpec ParetoProofs IndModel IndSpec IndProofs IndMetric CmdModel.
From Coq Require Import List.
Import ListNotations.
Close Scope Q_scope.
Open Scope nat_scope.

Lemma line_part_app k : forall s a r, line_part k s = (a, r) -> s = a ++ r.
Proof.
  induction k as [|k IH]; intros s a r H; cbn [line_part] in H; [now inversion H|].
  destruct s as [|c s]; [now inversion H|]. destruct (c =? 10); [now inversion H|].
  destruct (line_part k s) as [a' r'] eqn:E. apply IH in E. inversion H. subst. reflexivity.
Qed.
Lemma line_part_progress k s a r : line_part (S k) s = (a, r) -> s <> [] -> length r < length s.
Proof.
  intros H N. pose proof (line_part_app _ _ _ _ H) as E. assert (L : 0 < length a).
  { destruct s as [|c s]; [easy|]. cbn [line_part] in H. destruct (c =? 10); [inversion H; subst; cbn; lia|].
    destruct (line_part k s). inversion H. subst. cbn. lia. }
  apply (f_equal (@length _)) in E. rewrite app_length in E. lia.
Qed.
Lemma c_string_id l : ~ In 0 l -> c_string l = l.
Proof.
  induction l as [|c l IH]; intro N; cbn [c_string]; [easy|]. destruct (Nat.eqb_spec c 0) as [->|]; [exfalso; apply N; now left|].
  f_equal. apply IH. intro K. apply N. now right.
Qed.

Lemma read_all_ok n : 2 <= n -> forall fuel s output, ~ In 0 s -> length s < fuel -> read_all fuel n s output = Some (output ++ s).
Proof.
  intro N. induction fuel as [|fuel IH]; intros s output Z L; [lia|]. cbn [read_all]. unfold fgets.
  assert (E : (n =? 1) = false) by (apply Nat.eqb_neq; lia). rewrite E.
  destruct s as [|c s]; [now rewrite app_nil_r|].
  destruct (line_part (n - 1) (c :: s)) as [a r] eqn:P. replace (n - 1) with (S (n - 2)) in P by lia.
  pose proof (line_part_app _ _ _ _ P) as A. pose proof (line_part_progress _ _ _ _ P ltac:(discriminate)) as G.
  rewrite A in Z. rewrite IH; [|intro K; apply Z, in_or_app; now right|lia].
  rewrite c_string_id by (intro K; apply Z, in_or_app; now left). rewrite <- app_assoc, <- A. reflexivity.
Qed.
Lemma read_all_ends n : 2 <= n -> forall fuel s output, length s < fuel -> exists o, read_all fuel n s output = Some o.
Proof.
  intro N. induction fuel as [|fuel IH]; intros s output L; [lia|]. cbn [read_all]. unfold fgets.
  assert (E : (n =? 1) = false) by (apply Nat.eqb_neq; lia). rewrite E. destruct s as [|c s]; [eauto|].
  destruct (line_part (n - 1) (c :: s)) as [a r] eqn:P. replace (n - 1) with (S (n - 2)) in P by lia.
  pose proof (line_part_progress _ _ _ _ P ltac:(discriminate)) as G. apply IH. lia.
Qed.
Lemma read_all_one s : forall fuel output, read_all fuel 1 s output = None.
Proof. induction fuel as [|fuel IH]; intro output; cbn; auto. Qed.

(** reference point *)
Lemma ref_fitnesses_ok metric bs ref pop (g : list Q -> Q) : (forall p, In p pop -> metric bs (fst p) ref = Ok (g (fst p))) ->
  ref_fitnesses metric bs ref pop = Ok (map (fun p => (fst p, (- g (fst p))%Q)) pop).
Proof.
  induction pop as [|p pop IH]; intro H; cbn [ref_fitnesses map]; [easy|]. rewrite H by (now left). cbn [rbind].
  rewrite IH by (intros; apply H; now right). reflexivity.
Qed.
Lemma spanned_positive nobj pop bs : spanned_bounds nobj pop bs -> Forall (fun b => 0 < snd b)%Q bs.
Proof.
  intros [Lb Hb]. apply Forall_forall. intros b Ib. apply In_nth_error in Ib as (i & Hi).
  destruct (Hb i b Hi) as (lo & hi & (q & Hq & Eq) & _ & C & D & F). specialize (C q lo Hq Eq).
  destruct (Qlt_le_dec lo hi) as [X|X]; [destruct (D X) as [_ ->]; lra|]. assert (lo == hi)%Q as Y by lra. destruct (F Y) as [_ ->]. lra.
Qed.
