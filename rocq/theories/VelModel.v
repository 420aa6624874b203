(** Model of the sizes of a vector particle (eo/src/eoVectorParticle.h) and of the initializers of velocities (eo/src/eoVelocityInit.h).
    The state of the random generator is a value of any type; the generator of velocities and eoRng::random are parameters. *)
From Coq Require Import Arith Bool.
From Verif Require Import Lib Outcome.
From Coq Require Import List.
Import ListNotations.

(** eoVectorParticle (eoVectorParticle.h:42-151) over PO: the fitness is absent when invalid *)
Record vparticle (P V F : Type) := VPart { vpos : list P; vbests : list P; vvel : list V; vfit : option F }.
Arguments VPart {P V F}. Arguments vpos {P V F}. Arguments vbests {P V F}. Arguments vvel {P V F}. Arguments vfit {P V F}.

(** std::vector::resize *)
Definition vresize {A} (d : A) (n : nat) (l : list A) : list A := firstn n l ++ repeat d (n - length l).

Section Particle.
Context {P V F R : Type} (p0 : P) (v0 : V).
Notation part := (vparticle P V F).
(** the constructor (eoVectorParticle.h:71-74) *)
Definition new_particle (n : nat) (p : P) (v : V) (b : P) : part := VPart (repeat p n) (repeat b n) (repeat v n) None.
(** resize (eoVectorParticle.h:98-104) *)
Definition resize_all (n : nat) (x : part) : part := VPart (vresize p0 n (vpos x)) (vresize p0 n (vbests x)) (vresize v0 n (vvel x)) (vfit x).
(** resizeVelocities (eoVectorParticle.h:121-125) *)
Definition resize_velocities (n : nat) (x : part) : part := VPart (vpos x) (vbests x) (vresize v0 n (vvel x)) (vfit x).
(** std::copy into the first places of a vector at least as long *)
Definition copy_into {A} (src dst : list A) : list A := src ++ skipn (length src) dst.
(** position (eoVectorParticle.h:79-93); the warning is not modelled *)
Definition set_position (v : list P) (x : part) : part :=
  let x := if length v =? length (vpos x) then x else resize_all (length v) x in
  VPart (copy_into v (vpos x)) (vbests x) (vvel x) None.

(** std::generate over a vector of [n] places *)
Fixpoint generate (gen : R -> V * R) (n : nat) (g : R) : list V * R :=
  match n with 0 => ([], g) | S n => let '(v, g) := gen g in let '(l, g) := generate gen n g in (v :: l, g) end.
(** eoVelocityInitFixedLength::operator() (eoVelocityInit.h:89-94) *)
Definition init_fixed (gen : R -> V * R) (combien : nat) (x : part) (g : R) : part * R :=
  let x := resize_all combien x in
  let '(l, g) := generate gen (length (vvel x)) g in (VPart (vpos x) (vbests x) l (vfit x), g).
(** the constructor of eoVelocityInitVariableLength (eoVelocityInit.h:112-121): the offset and the extent *)
Definition make_variable (minSize maxSize : nat) : res (nat * nat) := if maxSize <=? minSize then Throw else Ok (minSize, maxSize - minSize).
(** the loop of init over the velocities (eoVelocityInit.h:127-129) *)
Fixpoint init_each (init : V -> R -> V * R) (l : list V) (g : R) : list V * R :=
  match l with [] => ([], g) | v :: l => let '(v, g) := init v g in let '(l, g) := init_each init l g in (v :: l, g) end.
(** eoVelocityInitVariableLength::operator() (eoVelocityInit.h:124-130).  [random]: eoRng::random *)
Definition init_variable (random : nat -> R -> nat * R) (init : V -> R -> V * R) (oe : nat * nat) (x : part) (g : R) : part * R :=
  let '(k, g) := random (snd oe) g in
  let x := resize_velocities (fst oe + k) x in
  let '(l, g) := init_each init (vvel x) g in (VPart (vpos x) (vbests x) l (vfit x), g).
(** eoVelocityInitGenerator::operator() (eoVelocityInit.h:60-65): a new particle, initialized *)
Definition velocity_generator (f : part -> R -> part * R) (g : R) : part * R := f (new_particle 0 p0 v0 p0) g.
End Particle.
