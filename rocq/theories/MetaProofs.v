(** Variable neighborhood search and iterated local search. *)
From Coq Require Import List Arith Bool Lia Permutation ZArith QArith.
From Verif Require Import Outcome Lib OrderSpec OrderLemmas NeighModel LsModel LsSpec LsProofs MetaModel MetaSpec.
From Coq Require Import List.
Import ListNotations.
Open Scope nat_scope.

Section Trace.
Variables (T X C : Type) (e : explorer T X) (c : continuator T C).
(** [P tr s x]: after the turns that gave the solutions [tr] *)
Variable P : list T -> T -> X -> Prop.
Hypothesis HT : forall tr s x ds b s' x' ds', P tr s x -> (tr = [] \/ x_continue e s x = true) -> ls_turn T X e s x ds = Ok (b, s', x', ds') -> P (tr ++ [s']) s' x'.
Lemma loop_trace : forall fuel tr s x cs ds r, P tr s x -> (tr = [] \/ x_continue e s x = true) -> ls_loop T X C e c fuel s x cs ds = Ok r ->
  exists s' x', P (tr ++ r_visited r) s' x' /\ last (r_visited r) s = s' /\ r_visited r <> [] /\ r_x r = x' /\ r_final r = x_terminate e s' x' /\
    (r_by_itself r = true -> x_continue e s' x' = false).
Proof.
  induction fuel as [|f IH]; intros tr s x cs ds r HP Hc H; [discriminate|]. cbn [ls_loop] in H.
  apply rbind_ok in H as ([[[b s'] x'] ds'] & Ht & H). assert (HP' := HT _ _ _ _ _ _ _ _ HP Hc Ht).
  destruct (c_step c s' cs) as [go cs']. destruct (go && x_continue e s' x') eqn:E.
  - apply andb_prop in E as [_ E]. apply rbind_ok in H as (r' & Hr & H). injection H as <-. cbn.
    destruct (IH (tr ++ [s']) s' x' cs' ds' r' HP' (or_intror E) Hr) as (s2 & x2 & A1 & A2 & A3 & A4 & A5 & A6). exists s2, x2.
    rewrite <- app_assoc in A1. cbn [app] in A1. split; [auto|]. split; [|repeat split; auto; discriminate].
    destruct (r_visited r') eqn:Ev; [destruct A3; reflexivity|]. rewrite <- A2. cbn. clear. revert t s s'. induction l; intros; auto. cbn. apply (IHl a).
  - injection H as <-. cbn. exists s', x'. repeat split; auto; try discriminate. intros ->. destruct (x_continue e s' x'); [discriminate|auto].
Qed.
End Trace.

(** ** selections *)
Section Sel.
Variables (kind : vn_kind) (size : nat) (cycle : bool) (shuf : nat -> list nat -> list nat).
Hypothesis SH : forall k l, Permutation (shuf k l) l.
Hypothesis SZ : 1 <= size.
(** the selection stands at place [k] of the round [l] *)
Definition sel_at (l : list nat) (k : nat) (s : vn_sel) : Prop :=
  round_of kind size l /\ k < size /\ s_current s = nth k l 0 /\ match kind with Random => s_order s = l /\ s_pos s = k | _ => True end.
Lemma round_length l : round_of kind size l -> length l = size.
Proof. intros [H _]. rewrite (Permutation_length H), seq_length. auto. Qed.
Lemma init_at s : sel_fresh kind size s -> exists l s', sel_init kind size shuf s = Ok s' /\ sel_at l 0 s'.
Proof.
  unfold sel_fresh, sel_init, sel_at, round_of. destruct kind; intros H.
  - exists (seq 0 size). eexists. split; [reflexivity|]. repeat split; auto. cbn. destruct size; [lia|]. reflexivity.
  - exists (rev (seq 0 size)). eexists. split; [reflexivity|]. repeat split; auto; [symmetry; apply Permutation_rev|]. cbn. rewrite rev_nth by (rewrite seq_length; lia). rewrite seq_length, seq_nth by lia. lia.
  - set (l0 := if length (s_order s) =? 0 then seq 0 size else s_order s). exists (shuf (s_inits s) l0).
    assert (P0 : Permutation l0 (seq 0 size)). { unfold l0. destruct (Nat.eqb_spec (length (s_order s)) 0); auto. destruct H as [H|H]; auto. rewrite H in n. cbn in n. lia. }
    assert (P1 : Permutation (shuf (s_inits s) l0) (seq 0 size)) by (rewrite SH; auto). assert (L := Permutation_length P1). rewrite seq_length in L.
    destruct (shuf (s_inits s) l0) as [|c l] eqn:E; [cbn in L; lia|]. cbn [nth_error of_opt rbind]. eexists. split; [reflexivity|]. repeat split; auto.
Qed.
Lemma next_at l k s : sel_at l k s -> exists s', sel_next kind size s = Ok s' /\ sel_at l (S k mod size) s'.
Proof.
  intros (R & Hk & Hc & Ho). assert (L := round_length l R). unfold sel_next, sel_at. assert (Hm : S k mod size < size) by (apply Nat.mod_upper_bound; lia). destruct R as [RP RK]. destruct kind eqn:EK.
  - destruct (Nat.eqb_spec size 0); [lia|]. eexists. split; [reflexivity|]. split; [split; rewrite ?EK; auto|]. split; auto. split; auto. cbn [s_current]. rewrite Hc, RK, !seq_nth by auto. replace (0 + k + 1) with (S k) by lia. reflexivity.
  - destruct (Nat.eqb_spec size 0); [lia|]. eexists. split; [reflexivity|]. split; [split; rewrite ?EK; auto|]. split; auto. split; auto. cbn [s_current]. rewrite Hc, RK, !rev_nth by (rewrite seq_length; auto). rewrite seq_length, !seq_nth by lia. 
    destruct (Nat.eq_dec (S k) size) as [E|E].
    + rewrite E, Nat.mod_same by lia. rewrite Nat.mod_small by lia. lia.
    + rewrite (Nat.mod_small (S k)) by lia. replace (0 + (size - S k) + size - 1) with ((size - S (S k)) + 1 * size) by lia. rewrite Nat.mod_add by lia. apply Nat.mod_small. lia.
  - destruct Ho as [Ho Hp]. rewrite Ho, L. destruct (Nat.eqb_spec size 0); [lia|]. rewrite Hp. replace (k + 1) with (S k) by lia. rewrite (nth_error_nth' l 0) by lia. cbn [of_opt rbind]. eexists. split; [reflexivity|]. split; [split; rewrite ?EK; auto|]. repeat split; auto.
Qed.
Lemma cont_at l k s : (kind = Backward \/ 2 <= size) -> sel_at l k s -> sel_cont kind size cycle s = cycle || (S k <? size).
Proof.
  intros H2 (R & Hk & Hc & Ho). assert (L := round_length l R). destruct R as [RP RK]. unfold sel_cont, le_minus_2. destruct kind eqn:EK.
  - destruct H2 as [H2|H2]; [discriminate|]. rewrite Hc, RK, seq_nth by auto. destruct (Nat.ltb_spec size 2); [lia|]. cbn [orb]. f_equal. destruct (Nat.leb_spec (0 + k) (size - 2)), (Nat.ltb_spec (S k) size); auto; lia.
  - rewrite Hc, RK, rev_nth by (rewrite seq_length; auto). rewrite seq_length, seq_nth by lia. f_equal. destruct (Nat.ltb_spec 0 (0 + (size - S k))), (Nat.ltb_spec (S k) size); auto; lia.
  - destruct H2 as [H2|H2]; [discriminate|]. destruct Ho as [Ho Hp]. rewrite Ho, Hp, L. destruct (Nat.ltb_spec size 2); [lia|]. cbn [orb]. f_equal. destruct (Nat.leb_spec k (size - 2)), (Nat.ltb_spec (S k) size); auto; lia.
Qed.
(** with one heuristic, the forward and random selections never end *)
Definition ends : Prop := kind = Backward \/ 2 <= size.
Lemma cont_cases l k s : sel_at l k s ->
  (sel_cont kind size cycle s = true -> cycle = false -> ends -> S k < size) /\ (sel_cont kind size cycle s = false -> cycle = false /\ ends /\ size <= S k).
Proof.
  intros HA. assert (D : ends \/ kind <> Backward /\ size = 1). { unfold ends. destruct kind; try (left; left; reflexivity). all: destruct (Nat.lt_ge_cases size 2); [right; split; [discriminate|lia]|left; auto]. }
  destruct D as [D|[D1 D2]].
  - rewrite (cont_at l k s D HA). destruct cycle, (Nat.ltb_spec (S k) size); cbn [orb]; repeat split; auto; try congruence; lia.
  - assert (sel_cont kind size cycle s = true). { destruct HA as (R & Hk & Hc & Ho). unfold sel_cont, le_minus_2. assert (L := round_length l R). rewrite D2 in *. destruct kind; [cbn; apply orb_true_r|congruence|]. destruct Ho as [-> _]. rewrite L. cbn. apply orb_true_r. }
    rewrite H. split; [|discriminate]. intros _ _ [E|E]; [congruence|lia].
Qed.
End Sel.

Section VnsProofs.
Variables (G F C : Type) (lt : F -> F -> bool) (full : G -> F).
Hypothesis LT : strict_weak_order lt.
Notation sol := (sol G F).
Notation vns := (vns G F).
Notation v_sel := (v_sel G F). Notation v_best := (v_best G F). Notation v_cur := (v_cur G F). Notation v_stop := (v_stop G F). Notation v_first := (v_first G F). Notation v_made := (v_made G F). Notation v_used := (v_used G F).
Variables (kind : vn_kind) (cycle : bool) (shuf : nat -> list nat -> list nat).
Variable hs : list ((sol -> list nat -> res (sol * list nat)) * (sol -> list nat -> res (sol * list nat))).
Variable crit : sol -> sol -> res bool.
Variable c : continuator sol C.
Hypothesis SH : forall k l, Permutation (shuf k l) l.
Notation search := (vns_search G F lt kind cycle shuf hs crit).
Notation size := (length hs).
Lemma best_extend (made : list sol) b s2 f g : best_stored lt made b -> fit b = Some f -> fit s2 = Some g -> best_stored lt (made ++ [s2]) (if lt f g then s2 else b).
Proof.
  intros [Hb (f' & Hf' & H)] Hf Hg. rewrite Hf in Hf'. injection Hf' as <-. destruct LT as (L1 & L2 & L3). destruct (lt f g) eqn:E.
  - split; [apply in_or_app; right; left; auto|]. exists g. split; auto. intros v h Hv Hh. apply in_app_or in Hv as [Hv|[<-|[]]].
    + apply (L3 g f h); [|apply (H v); auto]. destruct (lt g f) eqn:E2; auto. rewrite <- (L2 g f g E2 E). apply L1.
    + rewrite Hg in Hh. injection Hh as <-. apply L1.
  - split; [apply in_or_app; auto|]. exists f. split; auto. intros v h Hv Hh. apply in_app_or in Hv as [Hv|[<-|[]]]; [apply (H v); auto|]. rewrite Hg in Hh. injection Hh as <-. auto.
Qed.
(** ** what holds after each turn: [l] is the round, [s0] the start *)
Definition vns_ok (l : list nat) (s0 : sol) (tr : list sol) (s : sol) (x : vns) : Prop :=
  let n := length tr in
  v_first x = true /\ v_used x = rounds l n /\ length (v_made x) = n /\
  (exists b, v_best x = Some b /\ best_stored lt (s0 :: v_made x) b) /\ In s (s0 :: v_made x) /\
  (forall t, In t tr -> In t (s0 :: v_made x)) /\
  (v_stop x = false -> sel_at kind size l (n mod size) (v_sel x) /\ (cycle = false -> ends kind size -> n < size)) /\
  (v_stop x = true -> cycle = false /\ ends kind size /\ n = size).
Lemma rounds_snoc l n : rounds l (S n) = rounds l n ++ [nth (n mod length l) l 0].
Proof. unfold rounds. rewrite seq_S, map_app. reflexivity. Qed.
Lemma vns_turn l s0 : 1 <= size -> forall tr s x ds b s' x' ds', vns_ok l s0 tr s x -> (tr = [] \/ x_continue search s x = true) -> v_stop x = false \/ tr <> [] ->
  ls_turn _ _ search s x ds = Ok (b, s', x', ds') -> vns_ok l s0 (tr ++ [s']) s' x'.
Proof.
  intros SZ tr s x ds b s' x' ds' (A1 & A2 & A3 & (best & A4 & A5) & A6 & A7 & A8 & A9) Hc Hs H.
  assert (Hstop : v_stop x = false). { destruct Hs as [Hs|Hs]; auto. destruct Hc as [Hc|Hc]; [congruence|]. cbn in Hc. destruct (v_stop x); [discriminate|reflexivity]. }
  destruct (A8 Hstop) as [B1 B2]. clear Hc Hs A8 A9. unfold ls_turn in H. apply rbind_ok in H as ([[s1 x1] ds1] & He & H). apply rbind_ok in H as ([[b1 x2] ds2] & Ha & H). apply rbind_ok in H as ([[s2 x3] ds3] & Hm & H). apply rbind_ok in H as ([x4 ds4] & Hu & H). injection H as <- <- <- <-.
  cbn [x_explore search vns_search] in He. unfold vns_explore in He. apply rbind_ok in He as ([shake ls] & Hh & He). apply rbind_ok in He as ([t1 e1] & _ & He). apply rbind_ok in He as ([t2 e2] & _ & He). rewrite A4 in He. cbn [of_opt rbind] in He. apply rbind_ok in He as (f & Hf & He). apply rbind_ok in He as (g & Hg & He). injection He as <- <- <-.
  cbn [x_accept search vns_search] in Ha. unfold vns_accept in Ha. cbn [v_cur MetaModel.v_cur of_opt rbind] in Ha. apply rbind_ok in Ha as (bb & _ & Ha). injection Ha as <- <- <-.
  unfold fitness in Hf, Hg. destruct (fit best) as [f0|] eqn:Ef; [|discriminate]. injection Hf as ->. destruct (fit t2) as [g0|] eqn:Eg; [|discriminate]. injection Hg as ->.
  assert (Hbest := best_extend (s0 :: v_made x) best t2 f g A5 Ef Eg).
  assert (Es : s2 = (if bb then t2 else s) /\ x3 = Vns G F (v_sel x) (Some (if lt f g then t2 else best)) (Some t2) (v_stop x) (v_first x) (v_made x ++ [t2]) (v_used x ++ [s_current (v_sel x)])).
  { destruct bb; [cbn in Hm|]; injection Hm as <- <- <-; auto. }
  destruct Es as [-> ->]. clear Hm. cbn [x_update search vns_search] in Hu. unfold vns_update in Hu. cbn [MetaModel.v_first MetaModel.v_sel MetaModel.v_best MetaModel.v_cur MetaModel.v_stop MetaModel.v_made MetaModel.v_used] in Hu. rewrite A1 in Hu. cbn [negb andb] in Hu.
  assert (Hlen : forall y : list sol, length (tr ++ [if bb then t2 else s]) = S (length tr)) by (intros; rewrite app_length; cbn; lia).
  assert (Hcur : s_current (v_sel x) = nth (length tr mod size) l 0) by apply B1.
  assert (Hround : v_used x ++ [s_current (v_sel x)] = rounds l (S (length tr))). { rewrite rounds_snoc, A2, Hcur. rewrite (round_length kind size l) by apply B1. auto. }
  assert (Hin : In (if bb then t2 else s) (s0 :: v_made x ++ [t2])). { destruct bb; [right; apply in_or_app; right; left; auto|]. destruct A6 as [<-|A6]; [left; auto|right; apply in_or_app; auto]. }
  assert (Htr : forall t, In t (tr ++ [if bb then t2 else s]) -> In t (s0 :: v_made x ++ [t2])). { intros t Ht. apply in_app_or in Ht as [Ht|[<-|[]]]; auto. destruct (A7 t Ht) as [<-|Ht']; [left; auto|right; apply in_or_app; auto]. }
  destruct (cont_cases kind size cycle SZ l (length tr mod size) (v_sel x) B1) as [K1 K2].
  unfold vns_ok. rewrite (Hlen []).
  destruct (sel_cont kind size cycle (v_sel x)) eqn:Econt.
  - destruct (next_at kind size SZ l (length tr mod size) (v_sel x) B1) as (c' & En & Hc'). rewrite En in Hu. cbn [rbind] in Hu. injection Hu as <- <-. cbn [MetaModel.v_first MetaModel.v_sel MetaModel.v_best MetaModel.v_cur MetaModel.v_stop MetaModel.v_made MetaModel.v_used].
    split; [auto|]. split; [auto|]. split; [rewrite app_length; cbn; lia|]. split; [exists (if lt f g then t2 else best); split; auto|]. split; [auto|]. split; [auto|]. split; [|congruence]. intros _. split.
    + replace (S (length tr) mod size) with (S (length tr mod size) mod size); auto. rewrite <- (Nat.add_1_r (length tr mod size)), Nat.add_mod_idemp_l by lia. f_equal. lia.
    + intros E1 E2. specialize (K1 eq_refl E1 E2). specialize (B2 E1 E2). rewrite Nat.mod_small in K1 by auto. auto.
  - injection Hu as <- <-. cbn [MetaModel.v_first MetaModel.v_sel MetaModel.v_best MetaModel.v_cur MetaModel.v_stop MetaModel.v_made MetaModel.v_used].
    split; [auto|]. split; [auto|]. split; [rewrite app_length; cbn; lia|]. split; [exists (if lt f g then t2 else best); split; auto|]. split; [auto|]. split; [auto|]. split; [discriminate|]. intros _.
    destruct (K2 eq_refl) as (E1 & E2 & E3). split; auto. split; auto. specialize (B2 E1 E2). rewrite Nat.mod_small in E3 by auto. lia.
Qed.
Lemma started_fit s : fit (started full s) <> None.
Proof. unfold started. destruct (fit s) eqn:E; cbn; congruence. Qed.
Lemma vns_run fuel s x cs ds r : 1 <= size -> sel_fresh kind size (v_sel x) -> v_stop x = false -> v_made x = [] -> v_used x = [] ->
  local_search full search c fuel s x cs ds = Ok r ->
  exists l, round_of kind size l /\ v_used (r_x r) = rounds l (turns r) /\ length (v_made (r_x r)) = turns r /\
    best_stored lt (started full s :: v_made (r_x r)) (r_final r) /\ (forall t, In t (r_visited r) -> In t (started full s :: v_made (r_x r))) /\
    1 <= turns r /\ (cycle = false -> ends kind size -> turns r <= size) /\ (r_by_itself r = true -> cycle = false /\ ends kind size /\ turns r = size).
Proof.
  intros SZ SF St M0 U0 H. unfold local_search in H. fold (started full s) in H. unfold ls_run in H. apply rbind_ok in H as ([x1 ds1] & Hi & H). apply rbind_ok in H as (r1 & Hr & H). injection H as <-.
  cbn [x_init search vns_search] in Hi. unfold vns_init in Hi. destruct (init_at kind size shuf SH SZ (v_sel x) SF) as (l & c0 & Ec & Hc0). rewrite Ec in Hi. cbn [rbind] in Hi. injection Hi as <- <-. exists l.
  destruct (loop_trace _ _ _ search c (fun tr s' x' => vns_ok l (started full s) tr s' x' /\ (tr = [] -> v_stop x' = false)) ) with (fuel := fuel) (tr := @nil sol) (s := started full s)
     (x := Vns G F c0 (Some (started full s)) (v_cur x) (v_stop x) true (v_made x) (v_used x)) (cs := c_init c (started full s) cs) (ds := ds) (r := r1) as (s' & x' & [A B] & Al & An & Ax & Af & Ai).
  - intros tr sa xa da b sb xb db [HP HS] Hc Ht. split; [|intros E; destruct tr; discriminate]. eapply vns_turn; eauto. destruct tr; [left; auto|right; discriminate].
  - split; [|auto]. unfold vns_ok. cbn [MetaModel.v_first MetaModel.v_sel MetaModel.v_best MetaModel.v_cur MetaModel.v_stop MetaModel.v_made MetaModel.v_used length]. rewrite M0, U0, St.
    split; [auto|]. split; [auto|]. split; [auto|]. split.
    { exists (started full s). split; auto. split; [left; auto|]. destruct (fit (started full s)) as [f|] eqn:E; [|destruct (started_fit s E)]. exists f. split; auto. intros v g [<-|[]] Hg. rewrite E in Hg. injection Hg as <-. apply LT. }
    split; [left; auto|]. split; [intros t []|]. split; [|discriminate]. intros _. rewrite Nat.mod_small by lia. split; auto.
  - auto.
  - exact Hr.
  - cbn [app] in A. destruct A as (A1 & A2 & A3 & (best & A4 & A5) & A6 & A7 & A8 & A9). unfold turns. cbn [r_visited r_x r_final r_by_itself length Nat.sub]. rewrite ?Nat.sub_0_r, Ax.
    split; [apply Hc0|]. split; [auto|]. split; [auto|]. split. { rewrite Af. cbn. rewrite A4. auto. } split. { intros t [<-|Ht]; [left; auto|apply A7; auto]. }
    split. { destruct (r_visited r1); [congruence|cbn; lia]. } split.
    + intros E E2. destruct (v_stop x') eqn:Es; [destruct (A9 eq_refl) as (_ & _ & ->); lia|]. destruct (A8 eq_refl) as [_ Hl]. specialize (Hl E E2). lia.
    + intros Hb. apply Ai in Hb. cbn in Hb. destruct (v_stop x') eqn:Es; [apply A9; auto|discriminate].
Qed.
(** ** a round always ends *)
Variable cost : nat.
Hypothesis OPS : forall shake ls s ds, In (shake, ls) hs -> fit s <> None -> cost <= length ds ->
  exists s1 ds1 s2 ds2, shake s ds = Ok (s1, ds1) /\ ls s1 ds1 = Ok (s2, ds2) /\ fit s2 <> None /\ length ds <= cost + length ds2.
Hypothesis CRIT : forall a b, fit a <> None -> fit b <> None -> exists v, crit a b = Ok v.
Lemma vns_total s x cs ds : cycle = false -> (kind = Backward \/ 2 <= size) -> 1 <= size -> sel_fresh kind size (v_sel x) -> v_stop x = false -> (size + 1) * cost <= length ds ->
  exists r, local_search full search c (size + 1) s x cs ds = Ok r.
Proof.
  intros Hcy H2 SZ SF St Hd. unfold local_search. fold (started full s). unfold ls_run. cbn [x_init search vns_search]. unfold vns_init. destruct (init_at kind size shuf SH SZ (v_sel x) SF) as (l & c0 & Ec & Hc0). rewrite Ec. cbn [rbind].
  set (P := fun (s : sol) (x : vns) => fit s <> None /\ (exists b, v_best x = Some b /\ fit b <> None) /\ v_first x = true /\ exists k, sel_at kind size l k (v_sel x)).
  set (mu := fun (s : sol) (x : vns) => if v_stop x then 0 else size - (match kind with Forward => s_current (v_sel x) | Backward => size - 1 - s_current (v_sel x) | Random => s_pos (v_sel x) end)).
  destruct (loop_total _ _ _ search c P mu cost) with (fuel := size + 1) (s := started full s) (x := Vns G F c0 (Some (started full s)) (v_cur x) (v_stop x) true (v_made x) (v_used x)) (cs := c_init c (started full s) cs) (ds := ds) as (r & Er).
  - intros sa xa da (P1 & (b0 & P2 & P2') & P3 & k & P4) Hda. assert (Hcur : s_current (v_sel xa) < size). { destruct P4 as (R & Hk & -> & _). assert (In (nth k l 0) l) by (apply nth_In; rewrite (round_length kind size l R); auto). destruct R as [R _]. apply (Permutation_in _ R), in_seq in H. lia. }
    destruct (nth_error hs (s_current (v_sel xa))) as [[shake ls]|] eqn:Eh; [|apply nth_error_None in Eh; lia].
    destruct (OPS shake ls sa da (nth_error_In _ _ Eh) P1 Hda) as (s1 & e1 & s2 & e2 & O1 & O2 & O3 & O4).
    unfold ls_turn. cbn [x_explore search vns_search]. unfold vns_explore. rewrite Eh. cbn [of_opt rbind]. rewrite O1. cbn [rbind]. rewrite O2, P2. cbn [of_opt rbind]. unfold fitness. destruct (fit b0) as [f|] eqn:Ef; [|congruence]. destruct (fit s2) as [g|] eqn:Eg; [|congruence]. cbn [rbind].
    cbn [x_accept search vns_search]. unfold vns_accept. cbn [MetaModel.v_cur of_opt rbind]. destruct (CRIT sa s2 P1 ltac:(congruence)) as (v & Ev). rewrite Ev. cbn [rbind].
    assert (Hbest : fit (if lt f g then s2 else b0) <> None) by (destruct (lt f g); congruence).
    cbn [x_move x_update search vns_search]. unfold vns_move, vns_update. cbn [MetaModel.v_cur of_opt rbind].
    replace (if v then Ok (s2, _, e2) else Ok (sa, _, e2)) with (Ok (if v then s2 else sa, Vns G F (v_sel xa) (Some (if lt f g then s2 else b0)) (Some s2) (v_stop xa) (v_first xa) (v_made xa ++ [s2]) (v_used xa ++ [s_current (v_sel xa)]), e2)) by (destruct v; reflexivity).
    cbn [rbind]. cbn [MetaModel.v_first MetaModel.v_sel MetaModel.v_best MetaModel.v_cur MetaModel.v_stop MetaModel.v_made MetaModel.v_used]. rewrite P3. cbn [negb andb]. rewrite (cont_at kind size cycle SZ l k) by auto. rewrite Hcy. cbn [orb].
    destruct (Nat.ltb_spec (S k) size) as [Hk|Hk].
    + destruct (next_at kind size SZ l k (v_sel xa) P4) as (c' & En & Hc'). rewrite En. cbn [rbind]. eexists v, _, _, e2. split; [reflexivity|]. split.
      { unfold P. cbn [MetaModel.v_best MetaModel.v_first MetaModel.v_sel]. split; [destruct v; [congruence|auto]|]. split; [eauto|]. split; eauto. }
      split; [auto|]. cbn [x_continue search vns_search MetaModel.v_stop]. intros Hst. unfold mu. cbn [MetaModel.v_stop MetaModel.v_sel]. destruct (v_stop xa) eqn:Es; [discriminate|].
      rewrite Nat.mod_small in Hc' by auto. destruct P4 as (R & Hk1 & Hc1 & Ho1). destruct Hc' as (_ & Hk2 & Hc2 & Ho2). rewrite Hc1, Hc2. destruct R as [R RK]. destruct kind eqn:EK.
      * rewrite RK, !seq_nth by auto. lia.
      * rewrite RK, !rev_nth by (rewrite seq_length; auto). rewrite seq_length, !seq_nth by lia. lia.
      * destruct Ho1 as [_ ->]. destruct Ho2 as [_ ->]. lia.
    + cbn [rbind]. eexists v, _, _, e2. split; [reflexivity|]. split.
      { unfold P. cbn [MetaModel.v_best MetaModel.v_first MetaModel.v_sel]. split; [destruct v; [congruence|auto]|]. split; [eauto|]. split; eauto. }
      split; [auto|]. cbn [x_continue search vns_search MetaModel.v_stop]. discriminate.
  - unfold P. cbn [MetaModel.v_best MetaModel.v_first MetaModel.v_sel]. split; [apply started_fit|]. split; [eexists; split; [reflexivity|apply started_fit]|]. split; eauto.
  - unfold mu. destruct (MetaModel.v_stop _ _ _); lia.
  - lia.
  - rewrite Er. cbn [rbind]. eauto.
Qed.
End VnsProofs.
