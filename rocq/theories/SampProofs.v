(** Proofs about the samplings: the checkpoint, the columns, the files. *)
From Coq Require Import Bool Arith Lia.
From Verif Require Import Outcome Lib NeighModel LsModel LsSpec SampModel SampSpec.
From Coq Require Import List.
Import ListNotations.
Open Scope nat_scope.

Section Checkpoint.
Context {T X V A C : Type}.
Variables (e : explorer T X) (stats : list (stat T V)) (c : continuator T C).
Notation cp := (checkpoint (A := A) stats c).

Lemma cp_loop : forall fuel s x v (ms : list (monitor V A)) cs ds r, ls_loop T X _ e cp fuel s x (v, ms, cs) ds = Ok r ->
  ls_loop T X C e c fuel s x cs ds = Ok (plain r).
Proof.
  induction fuel as [|f IH]; intros s x v ms cs ds r H; cbn [ls_loop] in *; [discriminate|].
  apply rbind_ok in H as ([[[b s'] x'] ds'] & Ht & H). rewrite Ht. cbn [rbind]. cbn [c_step checkpoint] in H.
  destruct (c_step c s' cs) as [go cs']. replace (if negb go then false else true) with go in H by (destruct go; auto).
  destruct (go && x_continue e s' x').
  - apply rbind_ok in H as (r1 & Hr & H). injection H as <-. rewrite (IH _ _ _ _ _ _ _ Hr). reflexivity.
  - injection H as <-. reflexivity.
Qed.
Lemma cp_loop_back : forall fuel s x v (ms : list (monitor V A)) cs ds r, ls_loop T X C e c fuel s x cs ds = Ok r ->
  exists r', ls_loop T X _ e cp fuel s x (v, ms, cs) ds = Ok r' /\ plain r' = r.
Proof.
  induction fuel as [|f IH]; intros s x v ms cs ds r H; cbn [ls_loop] in *; [discriminate|].
  apply rbind_ok in H as ([[[b s'] x'] ds'] & Ht & H). rewrite Ht. cbn [rbind]. cbn [c_step checkpoint].
  destruct (c_step c s' cs) as [go cs']. replace (if negb go then false else true) with go by (destruct go; auto).
  destruct (go && x_continue e s' x').
  - apply rbind_ok in H as (r1 & Hr & H). injection H as <-. destruct (IH _ _ (calls stats s' v) (map (save (calls stats s' v)) ms) _ _ _ Hr) as (r' & E & <-).
    rewrite E. cbn [rbind]. eexists. split; reflexivity.
  - injection H as <-. eexists. split; reflexivity.
Qed.

Lemma in_turn_fold (f : stat T V -> T -> V -> V) (s : T) : forall l v, in_turn (map (fun st => f st s) l) v (fold_left (fun v st => f st s v) l v).
Proof. induction l as [|st l IH]; intros v; cbn; constructor. apply IH. Qed.
Lemma in_turn_det : forall (fs : list (V -> V)) v v1 v2, in_turn fs v v1 -> in_turn fs v v2 -> v1 = v2.
Proof. induction fs as [|f fs IH]; intros v v1 v2 H1 H2; inversion H1; inversion H2; subst; auto. eapply IH; eauto. Qed.

(** the states of the statistics after the successive calls *)
Fixpoint states (v : V) (sols : list T) : list V :=
  match sols with [] => [] | s :: r => calls stats s v :: states (calls stats s v) r end.
Lemma cp_columns : forall fuel s x v (ms : list (monitor V A)) cs ds r, ls_loop T X _ e cp fuel s x (v, ms, cs) ds = Ok r ->
  snd (fst (r_c r)) = map (fun m => Monitor (m_read m) (m_values m ++ map (m_read m) (states v (r_visited r)))) ms /\
  fst (fst (r_c r)) = last (states v (r_visited r)) v.
Proof.
  induction fuel as [|f IH]; intros s x v ms cs ds r H; cbn [ls_loop] in H; [discriminate|].
  apply rbind_ok in H as ([[[b s'] x'] ds'] & Ht & H). cbn [c_step checkpoint] in H.
  destruct (c_step c s' cs) as [go cs']. destruct ((if negb go then false else true) && x_continue e s' x').
  - apply rbind_ok in H as (r1 & Hr & H). injection H as <-. cbn [r_c r_visited]. destruct (IH _ _ _ _ _ _ _ Hr) as (E1 & E2). rewrite E1, E2. split.
    + rewrite map_map. apply map_ext. intros m. cbn [save m_read m_values states map]. rewrite <- app_assoc. reflexivity.
    + cbn [states]. destruct (states (calls stats s' v) (r_visited r1)) as [|a l] eqn:El; [reflexivity|]. cbn [last]. clear. revert a. induction l; intros; cbn; auto.
  - injection H as <-. cbn. split; auto.
Qed.
Lemma states_length v sols : length (states v sols) = length sols.
Proof. revert v. induction sols; intros; cbn; auto. Qed.
Lemma states_nth : forall sols v k s, nth_error sols k = Some s ->
  nth_error (states v sols) k = Some (calls stats s (nth k (v :: states v sols) v)).
Proof.
  induction sols as [|t sols IH]; intros v [|k] s H; cbn [nth_error states] in *; try discriminate.
  - injection H as <-. reflexivity.
  - rewrite (IH _ _ _ H). f_equal. f_equal. cbn [nth]. destruct k; auto. apply nth_indep. rewrite states_length. apply nth_error_lt in H. lia.
Qed.
Lemma observed_states v0 s sols : observed stats v0 (s :: sols) (inits stats s v0 :: states (inits stats s v0) sols).
Proof.
  split; [cbn; rewrite states_length; auto|]. split.
  - intros s' v Hs Hv. cbn in Hs, Hv. injection Hs as <-. injection Hv as <-. apply (in_turn_fold (@st_init T V)).
  - intros k s' v v' Hs Hv Hv'. cbn [nth_error] in Hs, Hv'.
    pose proof (states_nth _ (inits stats s v0) _ _ Hs) as E. rewrite (nth_error_nth _ _ _ Hv) in E. rewrite E in Hv'. injection Hv' as <-.
    apply (in_turn_fold (@st_call T V)).
Qed.
Lemma cp_run fuel s x v (ms : list (monitor V A)) cs ds r : ls_run T X _ e cp fuel s x (v, ms, cs) ds = Ok r ->
  ls_run T X C e c fuel s x cs ds = Ok (plain r) /\
  exists vs, observed stats v (r_visited r) vs /\ columns r = map (fun m => m_values m ++ map (m_read m) vs) ms /\ length vs = length (r_visited r) /\ fst (fst (r_c r)) = last vs v.
Proof.
  intros H. unfold ls_run in *. apply rbind_ok in H as ([x' ds'] & Hi & H). rewrite Hi. cbn [rbind]. cbn [c_init checkpoint] in H.
  apply rbind_ok in H as (r1 & Hr & H). injection H as <-. rewrite (cp_loop _ _ _ _ _ _ _ _ Hr). cbn [rbind plain r_final r_visited r_by_itself r_x r_c r_draws].
  split; [reflexivity|]. exists (inits stats s v :: states (inits stats s v) (r_visited r1)). split; [apply observed_states|]. split; [|split].
  - unfold columns. cbn [r_c]. destruct (cp_columns _ _ _ _ _ _ _ _ Hr) as [-> _]. rewrite !map_map. apply map_ext. intros m. cbn [m_values save m_read map]. rewrite <- app_assoc. reflexivity.
  - cbn. rewrite states_length. reflexivity.
  - cbn [r_c]. destruct (cp_columns _ _ _ _ _ _ _ _ Hr) as [_ ->]. destruct (states (inits stats s v) (r_visited r1)) as [|a l]; [reflexivity|]. cbn [last]. clear. revert a. induction l; intros; cbn; auto.
Qed.
End Checkpoint.

Section Sampling.
Context {G F X V A C : Type}.
Variables (full : G -> F) (init : sol G F -> list nat -> res (sol G F * list nat)) (blank : sol G F).
Variables (e : explorer (sol G F) X) (c : continuator (sol G F) C).
Lemma sampling_run stats (ms : list (monitor V A)) fuel x v cs ds r : sampling full init blank e c stats ms fuel x v cs ds = Ok r ->
  exists s ds1, init blank ds = Ok (s, ds1) /\ local_search full e c fuel s x cs ds1 = Ok (plain r) /\
  exists vs, observed stats v (r_visited r) vs /\ columns r = map (fun m => map (m_read m) vs) ms /\ length vs = length (r_visited r) /\ fst (fst (r_c r)) = last vs v.
Proof.
  intros H. unfold sampling in H. apply rbind_ok in H as ([s ds1] & Hi & H). exists s, ds1. split; auto. unfold local_search in *.
  apply cp_run in H as (H1 & vs & H2 & H3 & H4 & H5). split; auto. exists vs. split; auto. split; [|auto]. rewrite H3, map_map. reflexivity.
Qed.
Lemma sampling_back stats (ms : list (monitor V A)) fuel x v cs ds s ds1 r : init blank ds = Ok (s, ds1) -> local_search full e c fuel s x cs ds1 = Ok r ->
  exists r', sampling full init blank e c stats ms fuel x v cs ds = Ok r' /\ plain r' = r.
Proof.
  intros Hi H. unfold sampling. rewrite Hi. cbn [rbind]. unfold local_search in *. set (s0 := match fit s with Some _ => s | None => _ end) in *. clearbody s0.
  unfold ls_run in *. apply rbind_ok in H as ([x' ds'] & Hx & H). rewrite Hx. cbn [rbind]. apply rbind_ok in H as (r1 & Hr & H). injection H as <-. cbn [c_init checkpoint].
  destruct (cp_loop_back e stats c fuel s0 x' (inits stats s0 v) (map (save (inits stats s0 v)) (map clear ms)) _ _ _ Hr) as (r' & E & <-). rewrite E. cbn [rbind]. eexists. split; reflexivity.
Qed.
End Sampling.

(** a statistic of the solution alone *)
Lemma observed_pure {T V A} (stats : list (stat T V)) (read : V -> A) (f : T -> A) v0 sols vs :
  (forall s v v', in_turn (map (fun st => st_init st s) stats) v v' -> read v' = f s) ->
  (forall s v v', in_turn (map (fun st => st_call st s) stats) v v' -> read v' = f s) ->
  observed stats v0 sols vs -> map read vs = map f sols.
Proof.
  intros H1 H2 (L & O1 & O2). apply nth_error_ext. intros k. rewrite !nth_error_map'.
  destruct (nth_error sols k) as [s|] eqn:Es; destruct (nth_error vs k) as [v|] eqn:Ev; cbn [option_map]; auto.
  - f_equal. destruct k as [|k]; [eapply H1, O1; eauto|]. destruct (nth_error vs k) as [u|] eqn:Eu; [eapply H2, O2; eauto|].
    apply nth_error_None in Eu. apply nth_error_lt in Ev. lia.
  - apply nth_error_lt in Es. apply nth_error_None in Ev. lia.
  - apply nth_error_lt in Ev. apply nth_error_None in Es. lia.
Qed.
(** an invariant relation between the place and the state *)
Lemma observed_inv {T V} (stats : list (stat T V)) (P : nat -> T -> V -> Prop) v0 sols vs :
  (forall s v, in_turn (map (fun st => st_init st s) stats) v0 v -> P 0 s v) ->
  (forall k t s v v', P k t v -> in_turn (map (fun st => st_call st s) stats) v v' -> P (S k) s v') ->
  observed stats v0 sols vs -> forall k s v, nth_error sols k = Some s -> nth_error vs k = Some v -> P k s v.
Proof.
  intros H1 H2 (L & O1 & O2). induction k as [|k IH]; intros s v Es Ev.
  - eapply H1, O1; eauto.
  - destruct (nth_error vs k) as [u|] eqn:Eu.
    + destruct (nth_error sols k) as [t|] eqn:Et; [|apply nth_error_None in Et; apply nth_error_lt in Es; lia].
      eapply H2; [eapply IH; eauto|]. eapply O2; eauto.
    + apply nth_error_None in Eu. apply nth_error_lt in Ev. lia.
Qed.

(** ** files *)
Lemma split_free sep t : free_of sep t -> pieces sep t = [t].
Proof.
  induction t as [|a t IH]; intros H; cbn; auto. destruct (Nat.eqb_spec a sep); [exfalso; apply H; left; auto|]. rewrite IH; auto. intros K. apply H. right. auto.
Qed.
Lemma split_not_nil sep t : pieces sep t <> [].
Proof. destruct t as [|a t]; cbn; [discriminate|]. destruct (a =? sep); [discriminate|]. destruct (pieces sep t); discriminate. Qed.
Lemma split_app sep t u : free_of sep t -> pieces sep (t ++ sep :: u) = t :: pieces sep u.
Proof.
  induction t as [|a t IH]; intros H; cbn [pieces app].
  - rewrite Nat.eqb_refl. reflexivity.
  - destruct (Nat.eqb_spec a sep); [exfalso; apply H; left; auto|]. rewrite IH; auto. intros K. apply H. right. auto.
Qed.
Lemma free_app sep t u : free_of sep t -> free_of sep u -> free_of sep (t ++ u).
Proof. unfold free_of. intros H1 H2 H. apply in_app_or in H as [H|H]; auto. Qed.
(** the cells of a line *)
Lemma split_line d c r : Forall (free_of d) (c :: r) -> pieces d (c ++ concat (map (fun t => [d] ++ t) r)) = c :: r.
Proof.
  revert c. induction r as [|t r IH]; intros c H; inversion H as [|? ? Hc Hr]; subst; cbn [map concat app].
  - rewrite app_nil_r. apply split_free. auto.
  - rewrite split_app by auto. f_equal. apply IH. auto.
Qed.
Lemma line_free d c r : d <> 10 -> Forall (free_of 10) (c :: r) -> free_of 10 (c ++ concat (map (fun t => [d] ++ t) r)).
Proof.
  intros Hd. revert c. induction r as [|t r IH]; intros c H; inversion H as [|? ? Hc Hr]; subst; cbn [map concat app].
  - rewrite app_nil_r. auto.
  - apply free_app; auto. intros [K|K]; [congruence|]. apply (IH t); auto.
Qed.
(** a table is read back *)
Definition line_text (d : nat) (cells : list text) : text :=
  match cells with [] => endl | c :: r => (c ++ concat (map (fun t => [d] ++ t) r)) ++ endl end.
Lemma lines_of_cons t u : free_of 10 t -> lines_of (t ++ 10 :: u) = t :: lines_of u.
Proof. intros H. unfold lines_of. rewrite split_app by auto. cbn [removelast]. destruct (pieces 10 u) eqn:E; [destruct (split_not_nil 10 u); auto|]. reflexivity. Qed.
Lemma table_read d rows : d <> 10 -> Forall (fun cells => cells <> [] /\ Forall (free_of d) cells /\ Forall (free_of 10) cells) rows ->
  table_of d (concat (map (line_text d) rows)) = rows.
Proof.
  intros Hd. induction rows as [|cells rows IH]; intros H; [reflexivity|]. inversion H as [|? ? (Hn & H1 & H2) Hr]; subst.
  destruct cells as [|c r]; [congruence|]. cbn [map concat line_text]. unfold endl. rewrite <- !app_assoc. cbn [app]. rewrite app_assoc.
  unfold table_of. rewrite lines_of_cons by (apply line_free; auto). cbn [map]. rewrite split_line by auto. f_equal. apply IH. auto.
Qed.
Lemma lines_of_app t u : (exists w, t = w ++ [10]) \/ t = [] -> lines_of (t ++ u) = lines_of t ++ lines_of u.
Proof.
  intros [(w & ->)| ->]; [|reflexivity]. rewrite <- app_assoc. cbn [app].
  assert (K : forall n w u, length w <= n -> lines_of (w ++ 10 :: u) = lines_of (w ++ [10]) ++ lines_of u).
  { clear. induction n as [|n IH]; intros w u Hn.
    - destruct w; [|cbn in Hn; lia]. cbn [app]. change (10 :: u) with ([] ++ 10 :: u). rewrite lines_of_cons by (intros []). reflexivity.
    - destruct (in_dec Nat.eq_dec 10 w) as [Hi|Hi].
      + apply in_split in Hi as (a & b & ->).
        (* cut at the first end of line *)
        assert (E : exists a' b', a ++ 10 :: b = a' ++ 10 :: b' /\ free_of 10 a').
        { clear. induction a as [|y a IHa]; [exists [], b; split; auto; intros []|]. destruct (Nat.eq_dec y 10) as [->|Hy]; [exists [], (a ++ 10 :: b); split; auto; intros []|].
          destruct IHa as (a' & b' & E & Fr). exists (y :: a'), b'. split; [cbn; rewrite E; auto|]. intros [K|K]; [congruence|]. apply Fr; auto. }
        destruct E as (a' & b' & E & Fr). rewrite E in *. rewrite <- !app_assoc. cbn [app].
        rewrite (lines_of_cons a' (b' ++ 10 :: u)), (lines_of_cons a' (b' ++ [10])) by auto. cbn [app]. f_equal. apply IH. rewrite app_length in Hn. cbn in Hn. lia.
      + rewrite (lines_of_cons w u), (lines_of_cons w []) by auto. reflexivity. }
  apply (K (length w)). auto.
Qed.

Lemma cells_at_ok n : forall cols i, (forall c, In c cols -> length c = n) -> i < n -> cells_at i cols = Ok (map (fun c => nth i c []) cols).
Proof.
  induction cols as [|c cols IH]; intros i H Hi; cbn [cells_at map]; auto.
  rewrite (nth_error_nth' c []) by (rewrite (H c); [auto|left; auto]). cbn [of_opt rbind]. rewrite IH; auto. intros; apply H; right; auto.
Qed.
Lemma lines_ok d cols n : cols <> [] -> (forall c, In c cols -> length c = n) -> forall is, (forall i, In i is -> i < n) ->
  lines cols [d] is = Ok (concat (map (fun i => line_text d (map (fun c => nth i c []) cols)) is)).
Proof.
  intros Hc Hn. induction is as [|i is IH]; intros Hi; cbn [lines map concat]; auto.
  rewrite (cells_at_ok n) by (auto; apply Hi; left; auto). cbn [rbind]. destruct cols as [|c0 cols]; [congruence|]. cbn [map line rbind].
  rewrite IH by (intros; apply Hi; right; auto). cbn [rbind line_text map]. f_equal. rewrite <- !app_assoc. reflexivity.
Qed.
