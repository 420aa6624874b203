(** Properties C22, C62, C63: breeding.
    [W] is everything outside the populations; selectors, operators and flips are
    arbitrary functions of it. *)
From Coq Require Import List Arith ZArith Bool QArith.
From Verif Require Import Lib Outcome PopModel BreedModel BreedSpec BreedProofs BreedMore.
Import ListNotations.
Close Scope Q_scope.
Open Scope nat_scope.

(** A concrete breeding setting for the examples: individuals are numbers, the world
    counts selections, operators add or swap. *)
Definition ex_src : list (indiv nat nat) := [Ind 1 (Some 1); Ind 2 (Some 2); Ind 3 (Some 3)].
Definition ex_select (w : nat) : res (indiv nat nat * nat) :=
  Ok (nth (w mod 3) ex_src (Ind 0 None), S w).
Definition ex_flip (q : Q) (w : nat) : res (bool * nat) := Ok (negb (Qeq_bool q 0), w).
Definition ex_wheel (l : list Q) (w : nat) : res (nat * nat) := Ok (0, w).
Definition ex_add (n : nat) : mon_op (G:=nat) (F:=nat) (W:=nat) := fun x w => Ok (Ind (geno x + n) (fit x), true, w).
Definition ex_keep : mon_op (G:=nat) (F:=nat) (W:=nat) := fun x w => Ok (x, false, w).
Definition ex_swap : quad_op (G:=nat) (F:=nat) (W:=nat) := fun x y w =>
  Ok (Ind (geno y) (fit x), Ind (geno x) (fit y), true, w).
Definition ex_op : genop (G:=nat) (F:=nat) (W:=nat) :=
  Sequential [(1%Q, QuadGen ex_swap); (1%Q, Proportional [(1%Q, MonGen (ex_add 10))])].
Definition ex_op2 : genop (G:=nat) (F:=nat) (W:=nat) := Sequential [(1%Q, QuadGen ex_swap); (1%Q, MonGen (ex_add 10))].

(** C22 — the requested number of offspring, each unevaluated or an untouched copy of a parent *)
Theorem C22_general_breeder :
  forall (G F W : Type) (src : list (indiv G F)) select (flip : Q -> W -> res (bool * W)) wheel fuel op h w off w',
  selects_from src select -> honest op ->
  general_breeder src select flip wheel fuel op h w = Ok (off, w') ->
  hm_call h (length src) = Ok (length off) /\ Forall (fresh_or_copy src) off.
Proof. intros G F W src select flip wheel fuel op h w off w' Hs Hh H. exact (general_breeder_spec src select flip wheel Hs fuel op h w off w' Hh H). Qed.
Print Assumptions C22_general_breeder.
Example C22_general_ex :
  selects_from ex_src ex_select /\ honest ex_op /\
  general_breeder ex_src ex_select ex_flip ex_wheel 10 ex_op (HowMany 0 5) 0 =
    Ok ([Ind 12 None; Ind 1 None; Ind 11 None; Ind 3 None; Ind 13 None], 6).
Proof.
  split; [|split; [|reflexivity]].
  - intros w x w' H. unfold ex_select in H. assert (x = nth (w mod 3) ex_src (Ind 0 None)) as -> by congruence. apply nth_In. apply Nat.mod_upper_bound. discriminate.
  - cbn. repeat split; intros; discriminate.
Qed.

(** ... hence, when the parents carry no wrong fitness, neither do the offspring *)
Theorem C22_valid_fitness_is_right :
  forall (G F W : Type) (value : G -> F) (src : list (indiv G F)) select (flip : Q -> W -> res (bool * W)) wheel fuel op h w off w',
  selects_from src select -> honest op ->
  (forall x v, In x src -> fit x = Some v -> v = value (geno x)) ->
  general_breeder src select flip wheel fuel op h w = Ok (off, w') ->
  forall x v, In x off -> fit x = Some v -> v = value (geno x).
Proof.
  intros G F W value src select flip wheel fuel op h w off w' Hs Hh Hv H x v Hx Hf.
  destruct (general_breeder_spec src select flip wheel Hs fuel op h w off w' Hh H) as [_ Ha].
  rewrite Forall_forall in Ha. destruct (Ha x Hx) as [Hn|Hin]; [congruence|exact (Hv x v Hin Hf)].
Qed.
Print Assumptions C22_valid_fitness_is_right.
Example C22_valid_ex :
  (forall x v, In x ex_src -> fit x = Some v -> v = geno x) /\
  general_breeder ex_src ex_select ex_flip ex_wheel 9 (MonGen ex_keep) (HowMany 0 4) 0 =
    Ok ([Ind 1 (Some 1); Ind 2 (Some 2); Ind 3 (Some 3); Ind 1 (Some 1)], 4).
Proof. split; [|reflexivity]. intros x v [<-|[<-|[<-|[]]]] H; simpl in *; congruence. Qed.

(** ... and it ends, whatever the operator tree, when every component answers and the
    tree is sure to produce somebody *)
Theorem C22_breeder_ends :
  forall (G F W : Type) (src : list (indiv G F)) select (flip : Q -> W -> res (bool * W)) wheel op h target w fuel,
  (forall w, exists r, select w = Ok r) -> (forall q w, exists r, flip q w = Ok r) ->
  (forall l w, l <> [] -> exists i w', wheel l w = Ok (i, w') /\ i < length l) ->
  total_op op -> productive flip op ->
  hm_call h (length src) = Ok target -> target < fuel ->
  exists off w', general_breeder src select flip wheel fuel op h w = Ok (off, w').
Proof. intros. eapply general_breeder_total; eauto. Qed.
Print Assumptions C22_breeder_ends.
Example C22_ends_ex : total_op ex_op /\ productive ex_flip ex_op.
Proof.
  split; cbn; repeat split; intros; try discriminate; try (eexists; reflexivity).
  left. split; [|exact I]. intros w. exists w. reflexivity.
Qed.

(** a sequence none of whose operators fires never ends (finding) *)
Theorem C90_idle_sequence_refuted :
  forall (G F W : Type) (src : list (indiv G F)) select (flip : Q -> W -> res (bool * W)) wheel l h n w,
  (forall ro, In ro l -> forall w, flip (fst ro) w = Ok (false, w)) ->
  hm_call h (length src) = Ok (S n) ->
  forall fuel, general_breeder src select flip wheel fuel (Sequential l) h w = NoDraw.
Proof. intros G F W src select flip wheel l h n w H Eh fuel. exact (idle_breeder src select flip wheel l h n w fuel H Eh). Qed.
Print Assumptions C90_idle_sequence_refuted.
Example C22_idle_ex : forall w, ex_flip 0%Q w = Ok (false, w).
Proof. reflexivity. Qed.

(** the offspring of a wrapped operator are what the operator made of selected individuals *)
Theorem C22_breeder_applies_operator :
  forall (G F W : Type) (src : list (indiv G F)) select (flip : Q -> W -> res (bool * W)) wheel fuel op h w off w',
  selects_from src select -> basic op ->
  general_breeder src select flip wheel fuel op h w = Ok (off, w') -> Forall (produced op src) off.
Proof. intros G F W src select flip wheel fuel op h w off w' Hs Hb H. exact (general_breeder_produced src select flip wheel Hs fuel op h w off w' Hb H). Qed.
Print Assumptions C22_breeder_applies_operator.
Example C22_applies_ex :
  general_breeder ex_src ex_select ex_flip ex_wheel 9 (QuadGen ex_swap) (HowMany 0 3) 0 = Ok ([Ind 2 None; Ind 1 None; Ind 1 None], 4).
Proof. reflexivity. Qed.

(** eoSGATransform: sizes kept, everybody unevaluated or untouched *)
Theorem C22_sga_transform :
  forall (G F W : Type) (flip : Q -> W -> res (bool * W)) (cross : quad_op) crate (mut : mon_op) mrate (pop : list (indiv G F)) w pop' w',
  honest_quad cross -> honest_mon mut ->
  sga_transform flip cross crate mut mrate pop w = Ok (pop', w') -> Forall2 fresh_or_same pop pop'.
Proof. intros G F W flip cross crate mut mrate pop w pop' w' H1 H2 H. exact (sga_transform_spec flip cross crate mut mrate pop w pop' w' H1 H2 H). Qed.
Print Assumptions C22_sga_transform.
Theorem C22_sga_transform_sure :
  forall (G F W : Type) (flip : Q -> W -> res (bool * W)) (cross : quad_op) crate (mut : mon_op) mrate (pop : list (indiv G F)) w pop' w',
  fires flip crate -> fires flip mrate ->
  sga_transform flip cross crate mut mrate pop w = Ok (pop', w') ->
  exists mid, pairwise cross pop mid /\ Forall2 (mon_result mut) mid pop'.
Proof. intros G F W flip cross crate mut mrate pop w pop' w' H1 H2 H. exact (sga_transform_all flip cross crate mut mrate pop w pop' w' H1 H2 H). Qed.
Print Assumptions C22_sga_transform_sure.
Example C22_sga_ex :
  honest_quad ex_swap /\ honest_mon (ex_add 7) /\ fires ex_flip 1%Q /\
  sga_transform ex_flip ex_swap 1%Q (ex_add 7) 1%Q ex_src 0 = Ok ([Ind 9 None; Ind 8 None; Ind 10 None], 0).
Proof.
  split; [intros x y w x' y' w' H; discriminate|]. split; [intros x w x' w' H; discriminate|].
  split; [intros w b w' H; inversion H; reflexivity|reflexivity].
Qed.

(** C62 — sequential containers.  A wrapped operator followed by mutations: the operator
    makes its group (a pair for a quadratic operator), every mutation is applied, in
    order, to every member of that group *)
Theorem C62_sequence_pipeline :
  forall (G F W : Type) (src : list (indiv G F)) select (flip : Q -> W -> res (bool * W)) wheel r o (l : list (Q * mon_op)) a w q w',
  selects_from src select -> basic o -> fires flip r -> Forall (fun rf => fires flip (fst rf)) l ->
  apply src select flip wheel (Sequential ((r, o) :: map (fun rf => (fst rf, MonGen (snd rf))) l)) (Pop a (length a)) w = Ok (q, w') ->
  exists g g', Forall (produced o src) g /\ match o with QuadGen _ => length g = 2 | _ => length g = 1 end /\
    dest q = a ++ g' /\ Forall2 (chain (map snd l)) g g'.
Proof.
  intros G F W src select flip wheel r o l a w q w' Hs Hb Hr Hl H.
  exact (seq_pipeline src select flip wheel Hs r o l a w q w' Hb Hr Hl H).
Qed.
Print Assumptions C62_sequence_pipeline.
Example C62_pipeline_ex :
  apply ex_src ex_select ex_flip ex_wheel
    (Sequential ((1%Q, QuadGen ex_swap) :: map (fun rf => (fst rf, MonGen (snd rf))) [(1%Q, ex_add 10); (1%Q, ex_add 100)]))
    (Pop [Ind 77 None] 1) 0 = Ok (Pop [Ind 77 None; Ind 112 None; Ind 111 None] 3, 2).
Proof. reflexivity. Qed.
Theorem C62_sequence_group :
  forall (G F W : Type) (src : list (indiv G F)) select (flip : Q -> W -> res (bool * W)) wheel (l : list (Q * mon_op)) a g w q w',
  g <> [] -> Forall (fun rf => fires flip (fst rf)) l ->
  apply src select flip wheel (Sequential (map (fun rf => (fst rf, MonGen (snd rf))) l)) (Pop (a ++ g) (length a)) w = Ok (q, w') ->
  exists g', dest q = a ++ g' /\ Forall2 (chain (map snd l)) g g'.
Proof.
  intros G F W src select flip wheel l a g w q w' Hg Hl H. exact (seq_group src select flip wheel l a g w q w' Hg Hl H).
Qed.
Print Assumptions C62_sequence_group.
Example C62_group_ex :
  apply ex_src ex_select ex_flip ex_wheel (Sequential [(1%Q, MonGen (ex_add 10)); (1%Q, MonGen (ex_add 100))])
    (Pop (Ind 77 None :: ex_src) 1) 0 = Ok (Pop [Ind 77 None; Ind 111 None; Ind 112 None; Ind 113 None] 4, 0).
Proof. reflexivity. Qed.
(** ... but a proportional container in the sequence skips every other member (finding) *)
Theorem C90_proportional_in_sequence_refuted :
  exists (src : list (indiv nat nat)) (f : mon_op) g q w',
  apply src ex_select ex_flip ex_wheel (Sequential [(1%Q, Proportional [(1%Q, MonGen f)])]) (Pop g 0) 0 = Ok (q, w') /\
  fires ex_flip 1%Q /\
  ~ Forall2 (mon_result f) g (dest q) /\
  exists x, nth_error g 1 = Some x /\ nth_error (dest q) 1 = Some x.
Proof.
  exists ex_src, (ex_add 10), [Ind 1 None; Ind 2 None; Ind 3 None], (Pop [Ind 11 None; Ind 2 None; Ind 13 None] 3), 0.
  split; [reflexivity|]. split; [intros w b w' H; inversion H; reflexivity|]. split.
  - intros H. inversion H as [|? ? ? ? _ H1]; subst. inversion H1 as [|? ? ? ? H2 _]; subst.
    destruct H2 as (w & x' & ch & w' & E & Hy). inversion E; subst. discriminate.
  - exists (Ind 2 None). auto.
Qed.
Print Assumptions C90_proportional_in_sequence_refuted.

(** C63 — the one-to-one breeder *)
Theorem C63_one_to_one :
  forall (G F W : Type) (src : list (indiv G F)) select (flip : Q -> W -> res (bool * W)) wheel eval ltb accept op h w off w',
  selects_from src select -> single op ->
  one_to_one_breeder src select flip wheel eval ltb accept op h w = Ok (off, w') ->
  hm_call h (length src) = Ok (length off) /\ Forall (one_to_one_offspring src eval ltb accept op) off.
Proof.
  intros G F W src select flip wheel eval ltb accept op h w off w' Hs Hn H.
  exact (one_to_one_spec src select flip wheel Hs eval ltb accept op h w off w' Hn H).
Qed.
Print Assumptions C63_one_to_one.
Definition ex_eval (x : indiv nat nat) (w : nat) : res (indiv nat nat * nat) := Ok (Ind (geno x) (Some (geno x mod 7)), w).
Example C63_one_to_one_ex :
  one_to_one_breeder ex_src ex_select ex_flip ex_wheel ex_eval Nat.ltb (fun w => Ok (true, w)) (MonGen (ex_add 5)) (HowMany 1 0) 0 =
    Ok ([Ind 6 (Some 6); Ind 2 (Some 2); Ind 3 (Some 3)], 3).
Proof. reflexivity. Qed.
(** with pReplace = 1, an offspring never loses against its parent *)
Theorem C63_never_worse :
  forall (G F W : Type) (src : list (indiv G F)) select (flip : Q -> W -> res (bool * W)) wheel eval ltb accept op h w off w',
  selects_from src select -> single op ->
  (forall w b w', accept w = Ok (b, w') -> b = true) -> (forall a, ltb a a = false) ->
  one_to_one_breeder src select flip wheel eval ltb accept op h w = Ok (off, w') ->
  forall z, In z off -> exists x, In x src /\ beats_not ltb x z.
Proof.
  intros G F W src select flip wheel eval ltb accept op h w off w' Hs Hn Ha Hi H z Hz.
  destruct (one_to_one_spec src select flip wheel Hs eval ltb accept op h w off w' Hn H) as [_ Hall].
  rewrite Forall_forall in Hall. exact (one_to_one_no_worse src eval ltb accept op z Ha Hi (Hall z Hz)).
Qed.
Print Assumptions C63_never_worse.
(** containers are never usable there, even one holding a single mutation (finding) *)
Theorem C90_one_to_one_containers_refuted :
  forall (G F W : Type) (src : list (indiv G F)) select (flip : Q -> W -> res (bool * W)) wheel eval ltb accept op h w n,
  selects_from src select -> honest op -> ~ single op -> op <> Sequential [] ->
  hm_call h (length src) = Ok (S n) ->
  forall r, one_to_one_breeder src select flip wheel eval ltb accept op h w <> Ok r.
Proof.
  intros G F W src select flip wheel eval ltb accept op h w n Hs Hh Hn Hne Eh r.
  exact (one_to_one_others src select flip wheel Hs eval ltb accept op h w n Hh Hn Hne Eh r).
Qed.
Print Assumptions C90_one_to_one_containers_refuted.
Example C63_containers_ex :
  one_to_one_breeder ex_src ex_select ex_flip ex_wheel ex_eval Nat.ltb (fun w => Ok (true, w))
    (Sequential [(1%Q, MonGen (ex_add 5))]) (HowMany 1 0) 0 = Throw.
Proof. reflexivity. Qed.
