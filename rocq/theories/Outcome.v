(** Outcomes of modelled C++ calls.

    [Ok a]    : the call returns normally with [a];
    [Throw]   : the call throws an exception of the library;
    [UB]      : the call performs an undefined operation (out-of-bounds access,
                dereferencing end(), ...);
    [NoDraw]  : the finite list of random draws given as input is exhausted, so
                the list does not determine the outcome (theorems about all
                random behaviours either exclude this outcome explicitly or
                prove it cannot occur). *)
From Coq Require Import List Arith Lia.
Import ListNotations.

Inductive res (A : Type) : Type :=
| Ok (a : A) | Throw | UB | NoDraw.
Arguments Ok {A} a.
Arguments Throw {A}.
Arguments UB {A}.
Arguments NoDraw {A}.

Definition rbind {A B} (r : res A) (f : A -> res B) : res B :=
  match r with Ok a => f a | Throw => Throw | UB => UB | NoDraw => NoDraw end.
Notation "'let!' x ':=' a 'in' b" := (rbind a (fun x => b))
  (at level 200, x pattern, a at level 100, b at level 200, right associativity).

Definition of_opt {A} (o : option A) : res A :=
  match o with Some a => Ok a | None => UB end.

Lemma rbind_ok {A B} (r : res A) (f : A -> res B) b :
  rbind r f = Ok b -> exists a, r = Ok a /\ f a = Ok b.
Proof. destruct r; simpl; try discriminate; eauto. Qed.

Lemma of_opt_ok {A} (o : option A) a : of_opt o = Ok a -> o = Some a.
Proof. destruct o; simpl; congruence. Qed.

Ltac inv_res :=
  repeat match goal with
  | H : rbind _ _ = Ok _ |- _ =>
      apply rbind_ok in H; let a := fresh "v" in destruct H as [a [? ?]]
  | H : of_opt _ = Ok _ |- _ => apply of_opt_ok in H
  | H : Ok _ = Ok _ |- _ => injection H as H; subst
  | H : Throw = Ok _ |- _ => discriminate H
  | H : UB = Ok _ |- _ => discriminate H
  | H : NoDraw = Ok _ |- _ => discriminate H
  | H : (_, _) = (_, _) |- _ => injection H; clear H; intros; subst
  end.

(** One call of eoRng::random(n) (eo/src/utils/eoRNG.h:198-203).  The draw list
    ranges over all possible results of the calls: a draw [d] stands for the
    in-range result [d mod n] (that random(n) always lies in [0,n) is property
    C03), so quantifying over all lists quantifies over all random behaviours.
    random(0) returns 0 (uniform() * 0.0); with n = 0 the model leaves the draw as it is
    ([d mod 0 = d]), so a theorem about all draws covers the actual value 0. *)
Definition draw (n : nat) (ds : list nat) : res (nat * list nat) :=
  match ds with
  | [] => NoDraw
  | d :: ds' => Ok (d mod n, ds')
  end.

Lemma draw_lt n ds i ds' : 0 < n -> draw n ds = Ok (i, ds') -> i < n.
Proof.
  destruct ds; simpl; intros Hn H; inversion H; subst.
  apply Nat.mod_upper_bound; lia.
Qed.

(** One call of eoRng::flip(bias) with a bias strictly between 0 and 1
    (eoRNG.h:215-219): both answers are possible; a draw stands for its parity. *)
Definition draw_flip (ds : list nat) : res (bool * list nat) :=
  match ds with
  | [] => NoDraw
  | d :: ds' => Ok (Nat.odd d, ds')
  end.
