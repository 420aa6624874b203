(** * Parallel apply: what each worker can be doing *)

From Coq Require Import ZArith List Bool Lia Permutation.
From Verif Require Import Outcome Lib MpiModel MpiSpec MpiStatic.
Import ListNotations.
Local Open Scope Z_scope.

Section Worker.
Context {T A : Type}.
Variable f : T -> T.

Notation worker := (worker T).

Definition finishes (l : list command) : Prop := Forall (eq Finish) l.

(** Nothing is going on but releases. *)
Definition is_idle (k : worker) : Prop :=
  at_ k = WOrder /\ finishes (orders k) /\ tasks k = [] /\ answers k = [].

(** The worker was ordered to continue and has not received the size yet. *)
Definition called (k : worker) : Prop :=
  (at_ k = WOrder /\ exists fs, finishes fs /\ orders k = fs ++ [Continue])
  \/ (at_ k = WSize /\ orders k = []).

Definition is_called (k : worker) : Prop :=
  called k /\ tasks k = [] /\ answers k = [].

Definition is_sized (n : nat) (k : worker) : Prop :=
  answers k = [] /\
  ((called k /\ tasks k = [PSize n]) \/ (at_ k = WData n /\ orders k = [] /\ tasks k = [])).

(** The worker has been sent the elements [l] and the master has not got the
    answer yet. *)
Inductive working (l : list T) (k : worker) : Prop :=
| wk_sent : answers k = [] -> called k -> tasks k = [PSize (length l); PArray l] -> working l k
| wk_data : answers k = [] -> at_ k = WData (length l) -> orders k = [] ->
    tasks k = [PArray l] -> working l k
| wk_loop a b : answers k = [] -> l = a ++ b -> at_ k = WLoop (map f a) b -> orders k = [] ->
    tasks k = [] -> working l k
| wk_done : at_ k = WOrder -> orders k = [] -> tasks k = [] -> answers k = [map f l] ->
    working l k.

Definition is_gone (k : worker) : Prop :=
  tasks k = [] /\ answers k = [] /\
  ((at_ k = WOrder /\ exists fs, finishes fs /\ orders k = fs ++ [Kill])
   \/ (at_ k = WLeft /\ orders k = [])).

(** Elements sent to the worker on which the function was not yet called. *)
Definition arr (p : payload T) : list T := match p with PArray l => l | PSize _ => [] end.
Definition inflight (k : worker) : list T :=
  flat_map arr (tasks k) ++ match at_ k with WLoop _ b => b | _ => [] end.

(** Steps a worker, and the master for its answer, still have to do. *)
Definition load (p : payload T) : nat :=
  match p with PSize _ => 1 | PArray l => length l + 5 end.
Fixpoint loads (l : list (payload T)) : nat :=
  match l with [] => 0 | p :: l' => load p + loads l' end.
Lemma loads_app l1 l2 : loads (l1 ++ l2) = (loads l1 + loads l2)%nat.
Proof. induction l1 as [|p l1 IH]; cbn; [reflexivity|]. rewrite IH. lia. Qed.
Definition wm (k : worker) : nat :=
  (length (orders k) + loads (tasks k) + 3 * length (answers k)
   + match at_ k with WLoop _ b => length b + 4 | _ => 0 end)%nat.

(** The step of a worker, seen locally. *)
Inductive wout := WBlocked | WBad | WNext (k : worker) (xs : list T).

Definition local (k : worker) : wout :=
  match at_ k with
  | WOrder =>
      match orders k with
      | [] => WBlocked
      | c :: rest =>
          WNext (mkWorker (match c with Continue => WSize | Finish => WOrder | Kill => WLeft end)
                          rest (tasks k) (answers k)) []
      end
  | WSize =>
      match tasks k with
      | [] => WBlocked
      | PSize n :: rest => WNext (mkWorker (WData n) (orders k) rest (answers k)) []
      | PArray _ :: _ => WBad
      end
  | WData n =>
      match tasks k with
      | [] => WBlocked
      | PArray l :: rest =>
          if (n <=? length l)%nat
          then WNext (mkWorker (WLoop [] (firstn n l)) (orders k) rest (answers k)) [] else WBad
      | PSize _ :: _ => WBad
      end
  | WLoop done (x :: rest) =>
      WNext (mkWorker (WLoop (done ++ [f x]) rest) (orders k) (tasks k) (answers k)) [x]
  | WLoop done [] => WNext (mkWorker WOrder (orders k) (tasks k) (answers k ++ [done])) []
  | WLeft => WBlocked
  end.

Lemma worker_step_local (s : world T A) w :
  worker_step f s w =
  match local (wk s w) with
  | WBlocked => Blocked
  | WBad => Bad
  | WNext k xs =>
      Next (mkWorld (pc s) (alg s) (total s) (table s) (index s) (assigned s) (todo s)
                    (results s) (set_fn (wk s) w k) (calls s ++ xs))
  end.
Proof.
  unfold worker_step, local. destruct (at_ (wk s w)) as [| |n|done [|x rest]|].
  - destruct (orders (wk s w)); [reflexivity|]. now rewrite app_nil_r.
  - destruct (tasks (wk s w)) as [|[n|l] r]; auto. now rewrite app_nil_r.
  - destruct (tasks (wk s w)) as [|[m|l] r]; auto. destruct (n <=? length l)%nat; auto.
    now rewrite app_nil_r.
  - now rewrite app_nil_r.
  - reflexivity.
  - reflexivity.
Qed.

Lemma called_local k k' xs :
  called k -> local k = WNext k' xs -> tasks k = [] ->
  xs = [] /\ called k' /\ tasks k' = tasks k /\ answers k' = answers k /\
  wm k = S (wm k') /\ inflight k' = inflight k.
Proof.
  intros [(E & fs & F & O)|(E & O)] HL HT; unfold local in HL; rewrite E in HL.
  - rewrite O in HL. destruct fs as [|c fs]; cbn in HL.
    + injection HL as <- <-. repeat split; auto.
      * right. auto.
      * unfold wm. cbn. rewrite O, E. cbn. lia.
      * unfold inflight. cbn. now rewrite E.
    + injection HL as <- <-. inversion F; subst. repeat split; auto.
      * left. split; [reflexivity|]. exists fs. auto.
      * unfold wm. cbn. rewrite O, E. cbn. lia.
      * unfold inflight. cbn. now rewrite E.
  - rewrite HT in HL. discriminate.
Qed.

(** The same when tasks are already posted. *)
Lemma called_local' k k' xs :
  called k -> local k = WNext k' xs ->
  (xs = [] /\ called k' /\ tasks k' = tasks k /\ answers k' = answers k /\
   wm k = S (wm k') /\ inflight k' = inflight k)
  \/ (exists n rest, tasks k = PSize n :: rest /\ at_ k' = WData n /\ orders k' = [] /\
      tasks k' = rest /\ answers k' = answers k /\ xs = [] /\ wm k = S (wm k') /\
      inflight k' = inflight k).
Proof.
  intros [(E & fs & F & O)|(E & O)] HL; unfold local in HL; rewrite E in HL.
  - left. rewrite O in HL. destruct fs as [|c fs]; cbn in HL.
    + injection HL as <- <-. repeat split; auto.
      * right. auto.
      * unfold wm. cbn. rewrite O, E. cbn. lia.
      * unfold inflight. cbn. now rewrite E.
    + injection HL as <- <-. inversion F; subst. repeat split; auto.
      * left. split; [reflexivity|]. exists fs. auto.
      * unfold wm. cbn. rewrite O, E. cbn. lia.
      * unfold inflight. cbn. now rewrite E.
  - right. destruct (tasks k) as [|[n|l] rest] eqn:ET; try discriminate.
    injection HL as <- <-. exists n, rest. cbn. repeat split; auto.
    + unfold wm. cbn. rewrite ET, O, E. cbn. lia.
    + unfold inflight. cbn. now rewrite ET, E.
Qed.

(** Each situation is preserved by a step of the worker; the step consumes
    something; no call of the function is lost or repeated. *)
Definition kept (P : worker -> Prop) : Prop :=
  forall k k' xs, P k -> local k = WNext k' xs ->
  P k' /\ (wm k' < wm k)%nat /\ Permutation (inflight k) (xs ++ inflight k').

Lemma idle_kept : kept is_idle.
Proof.
  intros k k' xs (E & F & TK & AN) HL. unfold local in HL. rewrite E in HL.
  destruct (orders k) as [|c rest] eqn:O; [discriminate|].
  inversion F; subst. injection HL as <- <-. repeat split; auto.
  - unfold wm. cbn. rewrite O, E. cbn. lia.
  - unfold inflight. cbn. rewrite E. apply Permutation_refl.
Qed.

Lemma called_kept : kept is_called.
Proof.
  intros k k' xs (C & TK & AN) HL.
  destruct (called_local k k' xs C HL TK) as (-> & C' & T' & A' & M & IF).
  split; [|split; [lia|rewrite IF; apply Permutation_refl]].
  repeat split; auto; congruence.
Qed.

Lemma sized_kept n : kept (is_sized n).
Proof.
  intros k k' xs (AN & [(C & TK)|(E & O & TK)]) HL.
  - destruct (called_local' k k' xs C HL)
      as [(-> & C' & T' & A' & M & IF)|(m & rest & T' & AT & O' & R' & A' & -> & M & IF)].
    + split; [|split; [lia|rewrite IF; apply Permutation_refl]].
      split; [congruence|]. left. split; [exact C'|congruence].
    + rewrite TK in T'. injection T' as <- <-.
      split; [|split; [lia|rewrite IF; apply Permutation_refl]].
      split; [congruence|]. right. auto.
  - unfold local in HL. rewrite E, TK in HL. discriminate.
Qed.

Lemma working_kept l : kept (working l).
Proof.
  intros k k' xs W HL. destruct W as [AN C TK|AN E O TK|a b AN EL E O TK|E O TK AN].
  - destruct (called_local' k k' xs C HL)
      as [(-> & C' & T' & A' & M & IF)|(m & rest & T' & AT & O' & R' & A' & -> & M & IF)].
    + split; [|split; [lia|rewrite IF; apply Permutation_refl]].
      apply wk_sent; congruence.
    + rewrite TK in T'. injection T' as <- <-.
      split; [|split; [lia|rewrite IF; apply Permutation_refl]].
      apply wk_data; congruence.
  - unfold local in HL. rewrite E, TK, Nat.leb_refl in HL. injection HL as <- <-.
    rewrite firstn_all. split; [|split].
    + apply (wk_loop l _ [] l); auto.
    + unfold wm. cbn. rewrite E, TK. cbn. lia.
    + unfold inflight. cbn. rewrite E, TK. cbn. rewrite !app_nil_r. apply Permutation_refl.
  - unfold local in HL. rewrite E in HL. destruct b as [|x b].
    + injection HL as <- <-. rewrite app_nil_r in EL. subst a. split; [|split].
      * apply wk_done; cbn; auto. now rewrite AN.
      * unfold wm. cbn. rewrite E, AN. cbn. lia.
      * unfold inflight. cbn. rewrite E. apply Permutation_refl.
    + injection HL as <- <-. split; [|split].
      * apply (wk_loop l _ (a ++ [x]) b); auto.
        { now rewrite <- app_assoc. }
        { cbn. now rewrite map_app. }
      * unfold wm. cbn. rewrite E. cbn. lia.
      * unfold inflight. cbn. rewrite E, TK. cbn. apply Permutation_refl.
  - unfold local in HL. rewrite E, O in HL. discriminate.
Qed.

Lemma gone_kept : kept is_gone.
Proof.
  intros k k' xs (TK & AN & [(E & fs & F & O)|(E & O)]) HL; unfold local in HL; rewrite E in HL; [|discriminate].
  rewrite O in HL. destruct fs as [|c fs]; cbn in HL; injection HL as <- <-.
  - split; [|split].
    + repeat split; auto.
    + unfold wm. cbn. rewrite O, E. cbn. lia.
    + unfold inflight. cbn. rewrite E. apply Permutation_refl.
  - inversion F; subst. split; [|split].
    + repeat split; auto. left. split; [reflexivity|]. exists fs. auto.
    + unfold wm. cbn. rewrite O, E. cbn. rewrite !app_length. cbn. lia.
    + unfold inflight. cbn. rewrite E. apply Permutation_refl.
Qed.

(** No situation leads to something undefined. *)
Lemma called_not_bad k : called k -> (forall l r, tasks k <> PArray l :: r) -> local k <> WBad.
Proof.
  intros [(E & fs & F & O)|(E & O)] HT HB; unfold local in HB; rewrite E in HB.
  - rewrite O in HB. destruct fs; discriminate.
  - destruct (tasks k) as [|[n|l] r] eqn:TK; try discriminate. eapply HT; reflexivity.
Qed.

Lemma idle_not_bad k : is_idle k -> local k <> WBad.
Proof. intros (E & F & TK & AN). unfold local. rewrite E. destruct (orders k); discriminate. Qed.
Lemma is_called_not_bad k : is_called k -> local k <> WBad.
Proof. intros (C & TK & AN). apply called_not_bad; [exact C|]. intros l r. rewrite TK. discriminate. Qed.
Lemma sized_not_bad n k : is_sized n k -> local k <> WBad.
Proof.
  intros (AN & [(C & TK)|(E & O & TK)]).
  - apply called_not_bad; [exact C|]. intros l r. rewrite TK. discriminate.
  - unfold local. rewrite E, TK. discriminate.
Qed.
Lemma working_not_bad l k : working l k -> local k <> WBad.
Proof.
  intros [AN C TK|AN E O TK|a b AN EL E O TK|E O TK AN].
  - apply called_not_bad; [exact C|]. intros x r. rewrite TK. discriminate.
  - unfold local. rewrite E, TK, Nat.leb_refl. discriminate.
  - unfold local. rewrite E. destruct b; discriminate.
  - unfold local. rewrite E, O. discriminate.
Qed.
Lemma gone_not_bad k : is_gone k -> local k <> WBad.
Proof.
  intros (TK & AN & [(E & fs & F & O)|(E & O)]); unfold local; rewrite E; [|discriminate].
  rewrite O. destruct fs; discriminate.
Qed.

(** Who can move. *)
Lemma called_moves k : called k -> (exists n r, tasks k = PSize n :: r) \/ at_ k = WOrder ->
  exists k' xs, local k = WNext k' xs.
Proof.
  intros [(E & fs & F & O)|(E & O)] H; unfold local; rewrite E.
  - rewrite O. destruct fs; cbn; eauto.
  - destruct H as [(n & r & TK)|H]; [|congruence]. rewrite TK. eauto.
Qed.

Lemma idle_moves k : is_idle k -> orders k <> [] -> exists k' xs, local k = WNext k' xs.
Proof. intros (E & F & TK & AN) H. unfold local. rewrite E. destruct (orders k); [congruence|eauto]. Qed.

Lemma working_moves l k : working l k -> answers k = [] -> exists k' xs, local k = WNext k' xs.
Proof.
  intros [AN C TK|AN E O TK|a b AN EL E O TK|E O TK AN] HA.
  - apply called_moves; [exact C|]. left. eauto.
  - unfold local. rewrite E, TK, Nat.leb_refl. eauto.
  - unfold local. rewrite E. destruct b; eauto.
  - rewrite AN in HA. discriminate.
Qed.

Lemma gone_moves k : is_gone k -> at_ k <> WLeft -> exists k' xs, local k = WNext k' xs.
Proof.
  intros (TK & AN & [(E & fs & F & O)|(E & O)]) H; [|congruence].
  unfold local. rewrite E, O. destruct fs; cbn; eauto.
Qed.

(** The four moves of the master towards a worker. *)
Definition ordered (k : worker) (c : command) : worker :=
  mkWorker (at_ k) (orders k ++ [c]) (tasks k) (answers k).
Definition posted (k : worker) (p : payload T) : worker :=
  mkWorker (at_ k) (orders k) (tasks k ++ [p]) (answers k).

Lemma idle_finish k : is_idle k -> is_idle (ordered k Finish).
Proof.
  intros (E & F & TK & AN). repeat split; auto. cbn. apply Forall_app. split; [exact F|].
  constructor; auto.
Qed.

Lemma idle_continue k : is_idle k -> is_called (ordered k Continue).
Proof.
  intros (E & F & TK & AN). repeat split; auto. left. split; [exact E|]. exists (orders k). auto.
Qed.

Lemma idle_kill k : is_idle k -> is_gone (ordered k Kill).
Proof.
  intros (E & F & TK & AN). repeat split; auto. left. split; [exact E|]. exists (orders k). auto.
Qed.

Lemma called_size k n : is_called k -> is_sized n (posted k (PSize n)).
Proof.
  intros (C & TK & AN). split; [exact AN|]. left. split; [exact C|]. cbn. now rewrite TK.
Qed.

Lemma sized_data k l : is_sized (length l) k -> working l (posted k (PArray l)).
Proof.
  intros (AN & [(C & TK)|(E & O & TK)]).
  - apply wk_sent; [exact AN|exact C|]. cbn. now rewrite TK.
  - apply wk_data; auto. cbn. now rewrite TK.
Qed.

Lemma ordered_wm k c : wm (ordered k c) = S (wm k).
Proof. unfold wm. cbn. rewrite app_length. cbn. lia. Qed.
Lemma posted_wm k p : wm (posted k p) = (wm k + load p)%nat.
Proof. unfold wm. cbn. rewrite loads_app. cbn. lia. Qed.
Lemma ordered_inflight k c : inflight (ordered k c) = inflight k.
Proof. reflexivity. Qed.
Lemma posted_inflight k p : Permutation (inflight (posted k p)) (arr p ++ inflight k).
Proof.
  unfold inflight. cbn. rewrite flat_map_app. cbn. rewrite app_nil_r.
  rewrite app_assoc. apply Permutation_app_tail. apply Permutation_app_comm.
Qed.

(** The answer of a worker. *)
Definition taken (k : worker) (rest : list (list T)) : worker :=
  mkWorker (at_ k) (orders k) (tasks k) rest.

Lemma working_answer l k x rest : working l k -> answers k = x :: rest ->
  x = map f l /\ rest = [] /\ is_idle (taken k rest) /\
  inflight k = inflight (taken k rest) /\ (wm k = wm (taken k rest) + 3)%nat.
Proof.
  intros [AN C TK|AN E O TK|a b AN EL E O TK|E O TK AN] HA; try (rewrite AN in HA; discriminate).
  rewrite AN in HA. injection HA as <- <-. repeat split; auto.
  - cbn. rewrite O. constructor.
  - unfold wm. cbn. rewrite AN. cbn. lia.
Qed.

(** At most one task at a time. *)
Definition is_continue (c : command) : bool := match c with Continue => true | _ => false end.
Definition is_array (p : payload T) : bool := match p with PArray _ => true | _ => false end.
Definition at_work (k : worker) : nat := match at_ k with WLoop _ _ => 1 | _ => 0 end.

(** Arrays on their way to the worker, in its hands, or on their way back. *)
Definition arrays (k : worker) : nat :=
  (length (filter is_array (tasks k)) + at_work k + length (answers k))%nat.
Definition continues (k : worker) : nat := length (filter is_continue (orders k)).

Lemma finishes_none fs : finishes fs -> filter is_continue fs = [].
Proof. induction 1 as [|c fs E F IH]; [reflexivity|]. subst. exact IH. Qed.

Lemma called_continues k : called k -> (continues k <= 1)%nat /\ at_work k = 0%nat.
Proof.
  unfold continues, at_work. intros [(E & fs & F & O)|(E & O)]; rewrite E, O; [|cbn; lia].
  rewrite filter_app, (finishes_none fs F). cbn. lia.
Qed.

Lemma one_task k : is_idle k \/ is_called k \/ (exists n, is_sized n k) \/ (exists l, working l k) \/ is_gone k ->
  (arrays k <= 1)%nat /\ (continues k <= 1)%nat.
Proof.
  intros [(E & F & TK & AN)|[(C & TK & AN)|[(n & AN & [(C & TK)|(E & O & TK)])|
    [(l & [AN C TK|AN E O TK|a b AN EL E O TK|E O TK AN])|(TK & AN & [(E & fs & F & O)|(E & O)])]]]];
  unfold arrays; rewrite ?TK, ?AN;
  try (destruct (called_continues k C) as [H1 H2]; rewrite H2; cbn; lia);
  unfold continues, at_work; rewrite ?E, ?O, ?(finishes_none _ F); cbn; try lia.
  rewrite filter_app, (finishes_none fs F). cbn. lia.
Qed.

End Worker.
