(** Theorems C213-C216. *)
From Coq Require Import Arith QArith Bool Lia Lqa.
From Verif Require Import Lib Outcome ParetoModel ParetoSpec ParetoProofs IndModel IndSpec IndProofs IndMetric CmdModel CmdProofs.
From Coq Require Import List.
Import ListNotations.
Close Scope Q_scope.
Open Scope nat_scope.

(** ** C213: evaluation by a system command *)

(** An individual that has a fitness is left as it is, and no command is run. *)
Theorem C213_valid : forall {F} (number : text -> option F) zero shown system fuel n e x v,
  fitness x = Some v -> evaluate number zero shown system fuel n e x = Some (Done (Ok x) e []).
Proof. intros F number zero shown system fuel n e x v H. unfold evaluate. now rewrite H. Qed.
(** Otherwise exactly one command is run, made of the prefix, the command, the infix, the individual and the suffix with a space between them;
    it can be asked for afterwards, however the evaluation ends. *)
Theorem C213_command : forall {F} (number : text -> option F) zero shown system fuel n c p i s last genes d,
  let x := Indiv None genes in
  evaluate number zero shown system fuel n (Evaluator c p i s last) x = Some d ->
  let line := p ++ 32 :: c ++ 32 :: i ++ 32 :: shown x ++ 32 :: s in
  ran d = [line] /\ after d = Evaluator c p i s line.
Proof.
  intros F number zero shown system fuel n c p i s last genes d x H line. unfold evaluate in H. cbn [fitness x] in H.
  destruct (call number zero shown system fuel n _ _); [|easy]. inversion H. subst d. cbn [ran after]. split; reflexivity.
Qed.
(** The fitness is read from the whole output, however long its lines are and whatever the size of the buffer. *)
Theorem C213_whole_output : forall {F} (number : text -> option F) zero shown system fuel n e genes out v,
  2 <= n -> length out < fuel -> system (command shown e (Indiv None genes)) = Some (out, 0) -> ~ In 0 out ->
  number out = Some v -> (exists c, In c out /\ c <> 32 /\ ~ 9 <= c <= 13) ->
  exists d, evaluate number zero shown system fuel n e (Indiv None genes) = Some d /\ outcome d = Ok (Indiv (Some v) genes).
Proof.
  intros F number zero shown system fuel n e genes out v N L S Z V (c & C & C1 & C2). unfold evaluate. cbn [fitness]. unfold call. rewrite S.
  rewrite (read_all_ok n N fuel out [] Z L). cbn [app Nat.eqb negb]. eexists. split; [reflexivity|]. cbn [outcome]. unfold parse.
  destruct (forallb blank out) eqn:B.
  - rewrite forallb_forall in B. specialize (B c C). unfold blank in B. apply orb_true_iff in B as [B|B].
    + apply Nat.eqb_eq in B. congruence.
    + apply andb_true_iff in B as (B1 & B2). apply Nat.leb_le in B1, B2. lia.
  - rewrite V. reflexivity.
Qed.
(** A command that cannot be run, or that ends with another code than 0, makes the evaluation throw: no fitness is given, whatever was printed. *)
Theorem C213_failure : forall {F} (number : text -> option F) zero shown system fuel n e genes,
  2 <= n -> system (command shown e (Indiv None genes)) = None \/
            (exists out code, system (command shown e (Indiv None genes)) = Some (out, code) /\ code <> 0 /\ length out < fuel) ->
  exists d, evaluate number zero shown system fuel n e (Indiv None genes) = Some d /\ outcome d = Throw.
Proof.
  intros F number zero shown system fuel n e genes N [S|(out & code & S & K & L)]; unfold evaluate; cbn [fitness]; unfold call; rewrite S.
  - eexists. split; reflexivity.
  - destruct (read_all_ends n N fuel out [] L) as (o & ->). apply Nat.eqb_neq in K. rewrite K. eexists. split; reflexivity.
Qed.
(** Evaluating again does not run the command again. *)
Theorem C213_once : forall {F} (number : text -> option F) zero shown system fuel n e genes d y,
  evaluate number zero shown system fuel n e (Indiv None genes) = Some d -> outcome d = Ok y ->
  genes = CmdModel.genes y /\ evaluate number zero shown system fuel n (after d) y = Some (Done (Ok y) (after d) []).
Proof.
  intros F number zero shown system fuel n e genes d y H O. unfold evaluate in H. cbn [fitness] in H.
  destruct (call number zero shown system fuel n _ _) as [r|]; [|easy]. inversion H. subst d. cbn [outcome after] in *.
  destruct r as [f| | |]; cbn [rbind] in O; try easy. inversion O. subst y. split; reflexivity.
Qed.
(** a toy fitness: the first digit *)
Definition digit (t : text) : option nat := match t with c :: _ => if (48 <=? c) && (c <=? 57) then Some (c - 48) else None | [] => None end.
Example C213_ex : evaluate digit 0 (@genes nat) (fun _ => Some ([55; 10; 50; 50; 50; 10], 0)) 9 3 (Evaluator [99] [62] [] [] []) (Indiv None [65]) =
  Some (Done (Ok (Indiv (Some 7) [65])) (Evaluator [99] [62] [] [] [62; 32; 99; 32; 32; 65; 32]) [[62; 32; 99; 32; 32; 65; 32]]).
Proof. reflexivity. Qed.
Example C213_ex_fails : evaluate digit 0 (@genes nat) (fun _ => Some ([55; 10], 1)) 9 3 (Evaluator [99] [62] [] [] []) (Indiv None [65]) =
  Some (Done Throw (Evaluator [99] [62] [] [] [62; 32; 99; 32; 32; 65; 32]) [[62; 32; 99; 32; 32; 65; 32]]).
Proof. reflexivity. Qed.

(** ** C214: what a command may print *)

(** A command that succeeds and prints nothing but blanks: the fitness is read before it is set. *)
Theorem C214_blank_refuted : forall {F} (number : text -> option F) zero shown system fuel n e genes out,
  2 <= n -> length out < fuel -> system (command shown e (Indiv None genes)) = Some (out, 0) -> (forall c, In c out -> c = 32 \/ 9 <= c <= 13) ->
  exists d, evaluate number zero shown system fuel n e (Indiv None genes) = Some d /\ outcome d = UB.
Proof.
  intros F number zero shown system fuel n e genes out N L S B. unfold evaluate. cbn [fitness]. unfold call. rewrite S.
  rewrite (read_all_ok n N fuel out []); [|intro K; apply B in K; lia|exact L]. cbn [app Nat.eqb negb]. eexists. split; [reflexivity|].
  cbn [outcome]. unfold parse. assert (E : forallb blank out = true).
  { apply forallb_forall. intros c C. unfold blank. destruct (B c C) as [->|K]; [reflexivity|]. apply orb_true_iff. right.
    apply andb_true_iff. rewrite !Nat.leb_le. exact K. }
  rewrite E. reflexivity.
Qed.
(** One that succeeds and prints something that is no fitness: the individual silently gets the fitness 0. *)
Theorem C214_not_a_number_refuted : forall {F} (number : text -> option F) zero shown system fuel n e genes out,
  2 <= n -> length out < fuel -> system (command shown e (Indiv None genes)) = Some (out, 0) -> ~ In 0 out ->
  number out = None -> (exists c, In c out /\ blank c = false) ->
  exists d, evaluate number zero shown system fuel n e (Indiv None genes) = Some d /\ outcome d = Ok (Indiv (Some zero) genes).
Proof.
  intros F number zero shown system fuel n e genes out N L S Z V (c & C & C1). unfold evaluate. cbn [fitness]. unfold call. rewrite S.
  rewrite (read_all_ok n N fuel out [] Z L). cbn [app Nat.eqb negb]. eexists. split; [reflexivity|]. cbn [outcome]. unfold parse.
  destruct (forallb blank out) eqn:B; [rewrite forallb_forall in B; specialize (B c C); congruence|]. rewrite V. reflexivity.
Qed.
(** A buffer of one character: the evaluation never ends. *)
Theorem C214_buffer_of_one_refuted : forall {F} (number : text -> option F) zero shown system fuel e genes out code,
  system (command shown e (Indiv None genes)) = Some (out, code) -> evaluate number zero shown system fuel 1 e (Indiv None genes) = None.
Proof. intros. unfold evaluate. cbn [fitness]. unfold call. rewrite H. now rewrite read_all_one. Qed.
(** A null character in the output: what is read depends on the size of the buffer. *)
Theorem C214_null_refuted : exists out fuel, read_all fuel 3 out [] <> read_all fuel 128 out [] /\ read_all fuel 3 out [] <> None /\ read_all fuel 128 out [] <> None.
Proof. exists [49; 0; 50; 10], 9. repeat split; vm_compute; discriminate. Qed.
Example C214_ex : evaluate digit 0 (@genes nat) (fun _ => Some ([111; 107; 10], 0)) 9 128 (Evaluator [99] [62] [] [] []) (Indiv None [65]) =
  Some (Done (Ok (Indiv (Some 0) [65])) (Evaluator [99] [62] [] [] [62; 32; 99; 32; 32; 65; 32]) [[62; 32; 99; 32; 32; 65; 32]]) /\
  option_map (@outcome nat) (evaluate digit 0 (@genes nat) (fun _ => Some ([10], 0)) 9 128 (Evaluator [99] [62] [] [] []) (Indiv None [65])) = Some UB.
Proof. split; reflexivity. Qed.

(** ** C215: fitness from a reference point *)

(** Every individual gets minus the indicator of its objective vector against the reference point, with the bounds spanned by the population and
    the reference point; nothing else changes. *)
Theorem C215_fitness : forall metric (ind : list (Q * Q) -> list Q -> list Q -> Q) nobj ref pop,
  (forall bs x y, length bs = nobj -> length x = nobj -> length y = nobj -> metric bs x y = Ok (ind bs x y)) ->
  length ref = nobj -> (forall p, In p pop -> length (fst p) = nobj) ->
  exists p bs, ref_assign metric nobj ref pop = Ok (p, bs) /\ spanned_bounds nobj ((ref, 0%Q) :: pop) bs /\
    map fst p = map fst pop /\ forall x f, In (x, f) p -> (f == - ind bs x ref)%Q.
Proof.
  intros metric ind nobj ref pop M R L. unfold ref_assign.
  assert (L' : forall p, In p ((ref, 0%Q) :: pop) -> length (fst p) = nobj) by (intros p [<-|K]; auto).
  destruct (setup_ok nobj ((ref, 0%Q) :: pop) ltac:(discriminate) L') as (bs & -> & B). cbn [rbind].
  rewrite (ref_fitnesses_ok metric bs ref pop (fun x => ind bs x ref)) by (intros p K; apply M; [apply B|auto|auto]). cbn [rbind].
  eexists. exists bs. split; [reflexivity|]. split; [exact B|]. rewrite map_map. split; [apply map_ext; easy|].
  intros x f K. apply in_map_iff in K as (p & E & _). apply pair_equal_spec in E as (<- & <-). reflexivity.
Qed.
(** With the additive epsilon indicator, a solution that is nowhere worse than another has at least its fitness, and the fitness is not negative
    exactly for the solutions that are nowhere worse than the reference point. *)
Theorem C215_epsilon : forall dirs ref pop, dirs <> [] -> length ref = length dirs -> (forall p, In p pop -> length (fst p) = length dirs) ->
  exists p bs, ref_assign (epsilon_metric dirs) (length dirs) ref pop = Ok (p, bs) /\ map fst p = map fst pop /\
    (forall x1 f1 x2 f2, In (x1, f1) p -> In (x2, f2) p -> weakly_dominates dirs x1 x2 -> (f2 <= f1)%Q) /\
    (forall x f, In (x, f) p -> (0 <= f)%Q <-> weakly_dominates dirs x ref).
Proof.
  intros dirs ref pop Hd R L.
  destruct (C215_fitness (epsilon_metric dirs) (epi dirs) (length dirs) ref pop) as (p & bs & E & B & M & H); auto.
  { intros bs x y Lb Lx Ly. unfold epi. destruct (epsilon_metric_least dirs bs x y Hd Lb Lx Ly) as (e & -> & _). auto. }
  exists p, bs. split; [exact E|]. split; [exact M|]. pose proof (spanned_positive _ _ _ B) as Pos. destruct B as [Lb _].
  assert (L' : forall q, In q p -> length (fst q) = length dirs).
  { intros q Hq. apply (in_map fst) in Hq. rewrite M in Hq. apply in_map_iff in Hq as (q' & <- & Hq'). auto. }
  split.
  - intros x1 f1 x2 f2 I1 I2 W. rewrite (H _ _ I1), (H _ _ I2). pose proof (L' _ I1) as L1. pose proof (L' _ I2) as L2. cbn [fst] in L1, L2. unfold epi.
    destruct (epsilon_metric_least dirs bs x1 ref Hd Lb L1 R) as (e1 & E1 & _). destruct (epsilon_metric_least dirs bs x2 ref Hd Lb L2 R) as (e2 & E2 & _).
    destruct (epsilon_metric_least dirs bs x1 x2 Hd Lb L1 L2) as (e3 & E3 & _). rewrite E1, E2.
    pose proof (epsilon_triangle dirs bs x1 x2 ref e3 e2 e1 Hd Lb L1 L2 R E3 E2 E1).
    pose proof (proj2 (epsilon_sign dirs bs x1 x2 e3 Hd Lb L1 L2 Pos E3) W). lra.
  - intros x f I. rewrite (H _ _ I). pose proof (L' _ I) as Lx. cbn [fst] in Lx. unfold epi.
    destruct (epsilon_metric_least dirs bs x ref Hd Lb Lx R) as (e & Ee & _). rewrite Ee. rewrite <- (epsilon_sign dirs bs x ref e Hd Lb Lx R Pos Ee).
    split; intro K; lra.
Qed.
Example C215_ex : exists f1 f2 bs, ref_assign (epsilon_metric [true; true]) 2 [4; 4]%Q [([2; 3]%Q, 0%Q); ([6; 0]%Q, 0%Q)] = Ok ([([2; 3]%Q, f1); ([6; 0]%Q, f2)], bs) /\
  (f1 == 1 # 4)%Q /\ (f2 == - (1 # 2))%Q.
Proof. eexists. eexists. eexists. split; [vm_compute; reflexivity|]. split; reflexivity. Qed.

(** ** C216 *)

(** A solution that dominates another may get the same fitness. *)
Theorem C216_strict_refuted : exists dirs ref pop p bs, ref_assign (epsilon_metric dirs) (length dirs) ref pop = Ok (p, bs) /\
  exists x1 f1 x2 f2, In (x1, f1) p /\ In (x2, f2) p /\ dominates dirs x1 x2 /\ (f1 == f2)%Q.
Proof.
  exists [true; true], [4; 4]%Q, [([0; 4]%Q, 0%Q); ([2; 4]%Q, 0%Q)]. eexists. eexists. split; [vm_compute; reflexivity|].
  exists [0; 4]%Q. eexists. exists [2; 4]%Q. eexists. split; [left; reflexivity|]. split; [right; left; reflexivity|]. split; [|reflexivity].
  split.
  - intros [|[|i]] d x y (A & B & C); cbn in A, B, C.
    + inversion A. inversion B. inversion C. unfold better, better_by. lra.
    + inversion A. inversion B. inversion C. unfold better, better_by. lra.
    + destruct i; discriminate.
  - exists 0, true, 0%Q, 2%Q. split; [repeat split|]. unfold better, better_by. lra.
Qed.
(** The update after a deletion changes nothing, which is not what assigning the fitness again gives: the bounds may have moved. *)
Theorem C216_deletion_refuted : exists dirs ref x rest p bs p' bs',
  ref_assign (epsilon_metric dirs) (length dirs) ref (x :: rest) = Ok (p, bs) /\ ref_assign (epsilon_metric dirs) (length dirs) ref rest = Ok (p', bs') /\
  ~ Forall2 (fun a b => snd a == snd b)%Q (ref_update_by_deleting (tl p) (fst x)) p'.
Proof.
  exists [true], [0]%Q, ([4]%Q, 0%Q), [([2]%Q, 0%Q)]. eexists. eexists. eexists. eexists. split; [vm_compute; reflexivity|]. split; [vm_compute; reflexivity|].
  intro H. inversion H as [|a b l m K _]. cbn in K. discriminate.
Qed.
Print Assumptions C213_valid.
Print Assumptions C213_command.
Print Assumptions C213_whole_output.
Print Assumptions C213_failure.
Print Assumptions C213_once.
Print Assumptions C214_blank_refuted.
Print Assumptions C214_not_a_number_refuted.
Print Assumptions C214_buffer_of_one_refuted.
Print Assumptions C214_null_refuted.
Print Assumptions C215_fitness.
Print Assumptions C215_epsilon.
Print Assumptions C216_strict_refuted.
Print Assumptions C216_deletion_refuted.
