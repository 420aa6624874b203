(** Hill climbing: whole runs, termination; random-best and neutral hill climbing; walks. *)
From Coq Require Import List Arith Bool Lia.
From Verif Require Import Outcome Lib OrderSpec NeighModel LsModel LsSpec LsProofs.
Import ListNotations.
Open Scope nat_scope.

Lemma filter_fewer {A} (p q : A -> bool) l y : (forall x, p x = true -> q x = true) -> In y l -> q y = true -> p y = false ->
  length (filter p l) < length (filter q l).
Proof.
  intros Hpq. assert (Hle : forall l, length (filter p l) <= length (filter q l)).
  { clear -Hpq. induction l as [|x l IH]; cbn; auto. destruct (p x) eqn:E; [rewrite (Hpq _ E); cbn; lia|destruct (q x); cbn; lia]. }
  induction l as [|x l IH]; intros Hin Hq Hp; [destruct Hin|]. cbn. destruct Hin as [->|Hin].
  - rewrite Hq, Hp. cbn. specialize (Hle l). lia.
  - specialize (IH Hin Hq Hp). destruct (p x) eqn:E; [rewrite (Hpq _ E); cbn; lia|destruct (q x); cbn; lia].
Qed.
Lemma filter_not_all {A} (q : A -> bool) l y : In y l -> q y = false -> length (filter q l) < length l.
Proof.
  induction l as [|x l IH]; intros Hin Hq; [destruct Hin|]. cbn. assert (length (filter q l) <= length l).
  { clear. induction l; cbn; auto. destruct (q a); cbn; lia. }
  destruct Hin as [->|Hin]; [rewrite Hq; lia|]. specialize (IH Hin Hq). destruct (q x); cbn; lia.
Qed.
Lemma loop_length T X C (e : explorer T X) (c : continuator T C) (cnt : X -> nat) N :
  (forall s x ds b s' x' ds', ls_turn T X e s x ds = Ok (b, s', x', ds') -> cnt x' = S (cnt x)) ->
  (forall s x, x_continue e s x = true -> cnt x < N) ->
  forall fuel s x cs ds r, ls_loop T X C e c fuel s x cs ds = Ok r -> length (r_visited r) <= Nat.max 1 (N - cnt x).
Proof.
  intros Ht Hc. induction fuel as [|f IH]; intros s x cs ds r H; [discriminate|]. cbn [ls_loop] in H.
  apply rbind_ok in H as ([[[b s'] x'] ds'] & Hturn & H). destruct (c_step c s' cs) as [go cs']. destruct (go && x_continue e s' x') eqn:E.
  - apply rbind_ok in H as (r' & Hr & H). injection H as <-. cbn [r_visited length]. apply andb_prop in E as [_ E]. specialize (IH _ _ _ _ _ Hr).
    specialize (Hc _ _ E). specialize (Ht _ _ _ _ _ _ _ Hturn). lia.
  - injection H as <-. cbn [r_visited length]. lia.
Qed.

Lemma loop_count T X C (e : explorer T X) (c : continuator T C) (cnt : X -> nat) :
  (forall s x ds b s' x' ds', ls_turn T X e s x ds = Ok (b, s', x', ds') -> cnt x' = S (cnt x)) ->
  forall fuel s x cs ds r, ls_loop T X C e c fuel s x cs ds = Ok r -> cnt (r_x r) = cnt x + length (r_visited r).
Proof.
  intros Hcnt. induction fuel as [|f IH]; intros s x cs ds r H; [discriminate|]. cbn [ls_loop] in H.
  apply rbind_ok in H as ([[[b s'] x'] ds'] & Ht & H). apply Hcnt in Ht. destruct (c_step c s' cs) as [go cs']. destruct (go && _).
  - apply rbind_ok in H as (r' & Hr & H). injection H as <-. cbn [r_x r_visited length]. rewrite (IH _ _ _ _ _ Hr). lia.
  - injection H as <-. cbn. lia.
Qed.

Section Runs.
Variables (G F S I C : Type) (lt eq : F -> F -> bool) (Sp : G -> Prop) (nbrs : G -> list I) (has : G -> bool) (nh : G -> iterator S I).
Variables (Inv : S -> Prop) (Prog : G -> S -> Prop) (xfuel cost : nat).
Variables (full : G -> F) (neval : sol G F -> I -> res F) (move : I -> G -> res G) (c : continuator (sol G F) C).
Hypothesis LT : strict_weak_order lt.
Hypothesis NH : neighborhood_ok Sp nbrs has nh Inv Prog xfuel cost.
Hypothesis MV : moves_ok Sp nbrs full neval move.
Notation sol := (sol G F).
Notation good := (good G F I Sp nbrs full move).
Notation simple := (simple_hc G F S I lt has nh neval move xfuel).
Notation first := (first_hc G F S I lt has nh neval move xfuel).
Notation hc_ok := (hc_ok G F S I Sp Inv full).
Notation improves := (improves lt nbrs full move).
Notation steepest := (steepest lt nbrs full move).
Notation local_optimum := (local_optimum lt nbrs full move).
Notation start_of := (started full).
Lemma start_of_ok s : not_stale full s -> evaluated full (start_of s) /\ geno (start_of s) = geno s.
Proof. unfold evaluated, started. intros [E|E]; [|unfold evaluated in E]; rewrite E; auto. Qed.
Lemma last_In {A} (l : list A) d : l <> [] -> In (last l d) l.
Proof. induction l as [|a [|b l] IH]; intros H; [congruence|left; auto|]. right. apply IH. discriminate. Qed.

Lemma last_any {A} (l : list A) a d d' : last (a :: l) d = last (a :: l) d'.
Proof. revert a. induction l as [|b l IH]; intros a; auto. apply (IH b). Qed.

(** the run of any explorer whose parameters are not touched by initParam, from [start_of s] *)
Lemma run_split X (e : explorer sol X) fuel s x cs ds r : local_search full e c fuel s x cs ds = Ok r ->
  exists x0 ds0 r0, x_init e (start_of s) x ds = Ok (x0, ds0) /\ ls_loop _ _ _ e c fuel (start_of s) x0 (c_init c (start_of s) cs) ds0 = Ok r0 /\
    r = Run (r_final r0) (start_of s :: r_visited r0) (r_by_itself r0) (r_x r0) (r_c r0) (r_draws r0).
Proof.
  intros H. unfold local_search, ls_run in H. fold (started full s) in H. apply rbind_ok in H as ([x0 ds0] & Hi & H). apply rbind_ok in H as (r0 & Hr & H). injection H as <-. eauto 8.
Qed.

Theorem simple_run fuel s x cs ds r : Sp (geno s) -> not_stale full s -> Inv (h_nh F S I x) ->
  local_search full simple c fuel s x cs ds = Ok r ->
  climbs (fun a b => improves (geno a) (geno b) /\ steepest (geno a) (geno b)) (r_visited r) /\
  nth_error (r_visited r) 0 = Some (start_of s) /\ Forall (evaluated full) (r_visited r) /\ r_final r = last (r_visited r) s /\
  Sp (geno (r_final r)) /\ (r_by_itself r = true -> local_optimum (geno (r_final r))).
Proof.
  intros HS HN HI H. destruct (run_split _ _ _ _ _ _ _ _ H) as (x0 & ds0 & r0 & Hi & Hl & ->). cbn in Hi. injection Hi as <- <-.
  destruct (start_of_ok s HN) as [HE HG]. assert (HOK : hc_ok (start_of s) x) by (repeat split; auto; rewrite HG; auto).
  cbn. split.
  - apply (loop_climbs _ _ _ simple c hc_ok) with (R := fun a b => improves (geno a) (geno b) /\ steepest (geno a) (geno b)) in Hl; auto.
    intros s1 x1 ds1 b s2 x2 ds2 H1 H2. destruct (simple_turn G F S I lt Sp nbrs has nh Inv Prog xfuel cost full neval move LT NH MV _ _ _ _ _ _ _ H1 H2) as (A1 & A2 & A3 & A4).
    split; auto. destruct b; auto. right. split; [apply A4; auto|]. auto.
  - split; auto. apply (loop_chain _ _ _ simple c hc_ok) with (R := fun a b => True) (Stop := fun s _ => local_optimum (geno s)) in Hl; auto.
    + destruct Hl as (_ & s' & x' & A1 & A2 & A3 & A4 & A5 & A6 & A7). cbn in A5. unfold as_is in A5. split; [|split; [|split]].
      * constructor; auto. eapply Forall_impl; [|exact A7]. intros t [y Hy]. apply Hy.
      * rewrite A5, <- A2. destruct (r_visited r0) eqn:Ev; [congruence|]. apply last_any.
      * rewrite A5. apply A1.
      * rewrite A5. auto.
    + intros s1 x1 ds1 b s2 x2 ds2 H1 H2. destruct (simple_turn G F S I lt Sp nbrs has nh Inv Prog xfuel cost full neval move LT NH MV _ _ _ _ _ _ _ H1 H2) as (B1 & B2 & B3 & B4).
      split; auto. split; auto. cbn. intros E. rewrite E in B2. subst b. destruct (B4 eq_refl) as [-> ?]. auto.
Qed.
Theorem first_run always fuel s x cs ds r : Sp (geno s) -> not_stale full s -> Inv (h_nh F S I x) ->
  local_search full (first always) c fuel s x cs ds = Ok r ->
  (always = false -> climbs (fun a b => improves (geno a) (geno b)) (r_visited r)) /\
  chain (fun a b => improves (geno a) (geno b) \/ (b = a /\ local_optimum (geno a))) (r_visited r) /\
  nth_error (r_visited r) 0 = Some (start_of s) /\ Forall (evaluated full) (r_visited r) /\ r_final r = last (r_visited r) s /\
  Sp (geno (r_final r)) /\ (r_by_itself r = true -> always = false /\ local_optimum (geno (r_final r))).
Proof.
  intros HS HN HI H. destruct (run_split _ _ _ _ _ _ _ _ H) as (x0 & ds0 & r0 & Hi & Hl & ->). cbn in Hi. injection Hi as <- <-.
  destruct (start_of_ok s HN) as [HE HG]. assert (HOK : hc_ok (start_of s) x) by (repeat split; auto; rewrite HG; auto).
  cbn. split.
  - intros ->. apply (loop_climbs _ _ _ (first false) c hc_ok) with (R := fun a b => improves (geno a) (geno b)) in Hl; auto.
    intros s1 x1 ds1 b s2 x2 ds2 H1 H2. destruct (first_turn G F S I lt Sp nbrs has nh Inv Prog xfuel cost full neval move NH MV _ _ _ _ _ _ _ _ H1 H2) as (A1 & A2 & A3 & A4).
    split; auto. destruct b; auto. right. split; [apply A4; auto|]. auto.
  - apply (loop_chain _ _ _ (first always) c hc_ok) with (R := fun a b => improves (geno a) (geno b) \/ (b = a /\ local_optimum (geno a))) (Stop := fun s _ => always = false /\ local_optimum (geno s)) in Hl; auto.
    + destruct Hl as (A0 & s' & x' & A1 & A2 & A3 & A4 & A5 & A6 & A7). cbn in A5. unfold as_is in A5. split; auto. split; auto. split; [|split; [|split]].
      * constructor; auto. eapply Forall_impl; [|exact A7]. intros t [y Hy]. apply Hy.
      * rewrite A5, <- A2. destruct (r_visited r0) eqn:Ev; [congruence|]. apply last_any.
      * rewrite A5. apply A1.
      * rewrite A5. auto.
    + intros s1 x1 ds1 b s2 x2 ds2 H1 H2. destruct (first_turn G F S I lt Sp nbrs has nh Inv Prog xfuel cost full neval move NH MV _ _ _ _ _ _ _ _ H1 H2) as (B1 & B2 & B3 & B4).
      split; auto. split. { destruct b; auto. }
      cbn. intros E. apply orb_false_elim in E as [E1 E2]. rewrite E2 in B2. subst b. destruct (B4 eq_refl) as [-> ?]. auto.
Qed.

(** ** termination on a finite search space *)
Variable space : list G.
Hypothesis FIN : forall g, Sp g -> In g space.
Definition mu (s : sol) : nat := length (filter (fun g => lt (full (geno s)) (full g)) space).
Lemma mu_improves s s' : Sp (geno s') -> improves (geno s) (geno s') -> mu s' < mu s.
Proof.
  intros HS [_ Hlt]. destruct LT as (L1 & L2 & L3). unfold mu. apply filter_fewer with (y := geno s'); auto. intros g Hg. apply (L2 _ (full (geno s'))); auto.
Qed.
Lemma mu_bound s : Sp (geno s) -> mu s < length space.
Proof. intros HS. unfold mu. apply filter_not_all with (y := geno s); auto. apply LT. Qed.
Lemma accept_move_total s x ds q : hc_ok s x -> good s q -> h_sel F S I x = Some q -> has (geno s) = true ->
  exists b s' x', (let! (b, x2, ds2) := hc_accept G F S I lt has s x ds in
   let! (s2, x3, ds3) := (if b : bool then hc_move G F S I move s x2 ds2 else Ok (s, x2, ds2)) in
   let! (x4, ds4) := no_update G F b s2 x3 ds3 in Ok (b, s2, x4, ds4)) = Ok (b, s', x', ds).
Proof.
  intros (HS & HE & HI) Hq Hs Hh. unfold hc_accept. rewrite Hh, Hs. cbn. rewrite (good_not_better G F I lt Sp nbrs full move s q HE Hq). cbn.
  destruct (lt (full (geno s)) (snd q)); cbn; eauto. unfold hc_move. cbn. destruct (good_move G F I Sp nbrs full move s q Hq) as (g' & _ & _ & _ & E). rewrite E. cbn. eauto.
Qed.
Lemma simple_turn_total s x ds : hc_ok s x -> cost <= length ds ->
  exists b s' x' ds', ls_turn _ _ simple s x ds = Ok (b, s', x', ds') /\ length ds <= cost + length ds'.
Proof.
  intros HOK Hd. assert (HOK' := HOK). destruct HOK as (HS & HE & HI). unfold ls_turn. cbn [x_explore x_accept x_move x_update simple_hc].
  destruct (has (geno s)) eqn:Hh.
  - destruct (start_total G F S I Sp nbrs has nh Inv Prog xfuel cost full neval move NH MV s _ _ HS HE Hh HI Hd) as (p & n & ds1 & xs & n2 & ds2 & E1 & E2 & Hl).
    destruct (start_spec G F S I Sp nbrs has nh Inv Prog xfuel cost full neval move NH MV s _ _ _ _ _ HS HE Hh HI E1) as (Hi & Hp & HP & _).
    destruct (scan_total G F S I Sp nbrs has nh Inv Prog xfuel cost neval NH (fun _ => false) (keep_best F I lt) s (good s) HS) with (fuel := xfuel) (a := p) (n := n) (ds := ds1) (xs := xs) (n' := n2) (ds' := ds2) as (q & n3 & ds3 & E3 & Hl3 & Hq); auto.
    { intros a i Ha Hin. destruct (neval_good G F I Sp nbrs full neval move MV s i HS HE Hin) as (f & Hf & Hg). exists f. eexists. split; auto. split; [reflexivity|]. cbn. destruct (lt (snd a) f); auto. }
    assert (E : simple_explore G F S I lt has nh neval xfuel s x ds = Ok (s, Hc F S I n3 (Some q) (h_acc F S I x), ds3)).
    { unfold simple_explore. rewrite Hh, E1. cbn [rbind]. rewrite E3. reflexivity. }
    rewrite E. cbn [rbind]. destruct (simple_explore_spec G F S I lt Sp nbrs has nh Inv Prog xfuel cost full neval move LT NH MV _ _ _ _ _ _ HOK' Hh E) as (_ & HOK1 & _).
    destruct (accept_move_total s (Hc F S I n3 (Some q) (h_acc F S I x)) ds3 q HOK1 Hq eq_refl Hh) as (b & s' & x' & E4). rewrite E4. do 4 eexists. split; [reflexivity|]. lia.
  - unfold simple_explore, hc_accept. rewrite Hh. cbn. rewrite Hh. cbn. do 4 eexists. split; [reflexivity|]. lia.
Qed.
Lemma first_turn_total always s x ds : hc_ok s x -> cost <= length ds ->
  exists b s' x' ds', ls_turn _ _ (first always) s x ds = Ok (b, s', x', ds') /\ length ds <= cost + length ds'.
Proof.
  intros HOK Hd. assert (HOK' := HOK). destruct HOK as (HS & HE & HI). unfold ls_turn. cbn [x_explore x_accept x_move x_update first_hc].
  destruct (has (geno s)) eqn:Hh.
  - destruct (start_total G F S I Sp nbrs has nh Inv Prog xfuel cost full neval move NH MV s _ _ HS HE Hh HI Hd) as (p & n & ds1 & xs & n2 & ds2 & E1 & E2 & Hl).
    destruct (start_spec G F S I Sp nbrs has nh Inv Prog xfuel cost full neval move NH MV s _ _ _ _ _ HS HE Hh HI E1) as (Hi & Hp & HP & _).
    destruct (scan_total G F S I Sp nbrs has nh Inv Prog xfuel cost neval NH (fun a => lt (full (geno s)) (snd a)) (fun _ p => Ok p) s (good s) HS) with (fuel := xfuel) (a := p) (n := n) (ds := ds1) (xs := xs) (n' := n2) (ds' := ds2) as (q & n3 & ds3 & E3 & Hl3 & Hq); auto.
    { intros a i Ha Hin. destruct (neval_good G F I Sp nbrs full neval move MV s i HS HE Hin) as (f & Hf & Hg). exists f. eexists. split; auto. }
    assert (E : first_explore G F S I lt has nh neval xfuel s x ds = Ok (s, Hc F S I n3 (Some q) (h_acc F S I x), ds3)).
    { unfold first_explore, fitness. rewrite Hh, E1. cbn [rbind]. rewrite HE. cbn [rbind]. rewrite E3. reflexivity. }
    rewrite E. cbn [rbind]. destruct (first_explore_spec G F S I lt Sp nbrs has nh Inv Prog xfuel cost full neval move NH MV _ _ _ _ _ _ HOK' Hh E) as (_ & HOK1 & _).
    destruct (accept_move_total s (Hc F S I n3 (Some q) (h_acc F S I x)) ds3 q HOK1 Hq eq_refl Hh) as (b & s' & x' & E4). rewrite E4. do 4 eexists. split; [reflexivity|]. lia.
  - unfold first_explore, hc_accept. rewrite Hh. cbn. rewrite Hh. cbn. do 4 eexists. split; [reflexivity|]. lia.
Qed.
Theorem simple_terminates s x cs ds : Sp (geno s) -> not_stale full s -> Inv (h_nh F S I x) -> length space * cost <= length ds ->
  exists r, local_search full simple c (length space) s x cs ds = Ok r.
Proof.
  intros HS HN HI Hd. destruct (start_of_ok s HN) as [HE HG]. unfold local_search, ls_run. fold (started full s). cbn [x_init simple_hc no_init rbind].
  destruct (loop_total _ _ _ simple c hc_ok (fun s _ => mu s) cost) with (fuel := length space) (s := start_of s) (x := x) (cs := c_init c (start_of s) cs) (ds := ds) as [r Hr]; auto.
  - intros s1 x1 ds1 H1 Hd1. destruct (simple_turn_total s1 x1 ds1 H1 Hd1) as (b & s2 & x2 & ds2 & E & Hl). exists b, s2, x2, ds2.
    destruct (simple_turn G F S I lt Sp nbrs has nh Inv Prog xfuel cost full neval move LT NH MV _ _ _ _ _ _ _ H1 E) as (A1 & A2 & A3 & A4). split; auto. split; auto. split; auto.
    cbn. intros Eb. rewrite Eb in A2. subst b. destruct (A3 eq_refl). apply mu_improves; auto. apply A1.
  - repeat split; auto; rewrite HG; auto.
  - apply mu_bound. rewrite HG. auto.
  - rewrite Hr. cbn. eauto.
Qed.
Theorem first_terminates s x cs ds : Sp (geno s) -> not_stale full s -> Inv (h_nh F S I x) -> length space * cost <= length ds ->
  exists r, local_search full (first false) c (length space) s x cs ds = Ok r.
Proof.
  intros HS HN HI Hd. destruct (start_of_ok s HN) as [HE HG]. unfold local_search, ls_run. fold (started full s). cbn [x_init first_hc no_init rbind].
  destruct (loop_total _ _ _ (first false) c hc_ok (fun s _ => mu s) cost) with (fuel := length space) (s := start_of s) (x := x) (cs := c_init c (start_of s) cs) (ds := ds) as [r Hr]; auto.
  - intros s1 x1 ds1 H1 Hd1. destruct (first_turn_total false s1 x1 ds1 H1 Hd1) as (b & s2 & x2 & ds2 & E & Hl). exists b, s2, x2, ds2.
    destruct (first_turn G F S I lt Sp nbrs has nh Inv Prog xfuel cost full neval move NH MV _ _ _ _ _ _ _ _ H1 E) as (A1 & A2 & A3 & A4). split; auto. split; auto. split; auto.
    cbn. intros Eb. rewrite Eb in A2. subst b. specialize (A3 eq_refl). apply mu_improves; auto. apply A1.
  - repeat split; auto; rewrite HG; auto.
  - apply mu_bound. rewrite HG. auto.
  - rewrite Hr. cbn. eauto.
Qed.
End Runs.
