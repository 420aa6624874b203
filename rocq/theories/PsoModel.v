(** Model of the particle swarm classes of eo/src: PO.h, eoVectorParticle.h, the social topologies,
    the velocities, the flights, eoEasyPSO and eoSyncEasyPSO. *)
From Coq Require Import List Arith Bool ZArith QArith Qminmax.
From Verif Require Import Lib Outcome.
From Coq Require Import List.
Import ListNotations.
Open Scope nat_scope.

Section Pso.
(** positions, velocities and fitnesses; [lt] is operator< on fitnesses, [a > b] being [lt b a] *)
Variables (A V F : Type) (lt : F -> F -> bool).

(** eoVectorParticle (eoVectorParticle.h:42-151) over PO (PO.h:41-185): positions, velocities, bestPositions,
    fitness ([None]: invalid) and best fitness. *)
Record particle := Particle { pos : list A; vel : list V; bpos : list A; fit : option F; best : F }.

(** fitness() (PO.h:60-65) and best() (PO.h:80-85), which tests the validity of the fitness *)
Definition fitness (p : particle) : res F := match fit p with Some v => Ok v | None => Throw end.
Definition best_of (p : particle) : res F := match fit p with Some _ => Ok (best p) | None => Throw end.

(** eoSocialNeighborhood (eoSocialNeighborhood.h:39-122): indicesList and lBest *)
Record hood := Hood { members : list nat; lbest : particle }.
(** contains (59-70) *)
Definition contains (h : hood) (k : nat) : bool := existsb (Nat.eqb k) (members h).
(** put(k), then best(pop[k]) if its fitness is greater (eoLinearTopology.h:83-85, 94-97, eoRingTopology.h:75-77) *)
Definition put (pop : list particle) (h : hood) (k : nat) : res hood :=
  let h' := Hood (members h ++ [k]) (lbest h) in
  let! p := of_opt (nth_error pop k) in
  let! v := fitness p in
  let! b := fitness (lbest h') in
  Ok (if lt b v then Hood (members h') p else h').
Fixpoint put_all (pop : list particle) (h : hood) (ks : list nat) : res hood :=
  match ks with [] => Ok h | k :: r => let! h' := put pop h k in put_all pop h' r end.

(** eoLinearTopology::setup (eoLinearTopology.h:62-101), on a topology not set up yet *)
Definition linear_hood (size : nat) (pop : list particle) (i : nat) : res hood :=
  let! p := of_opt (nth_error pop (i * size)) in
  put_all pop (Hood [] p) (seq (i * size) size).
Fixpoint linear_hoods (size : nat) (pop : list particle) (is : list nat) : res (list hood) :=
  match is with
  | [] => Ok []
  | i :: r => let! h := linear_hood size pop i in let! l := linear_hoods size pop r in Ok (h :: l)
  end.
(** neighborhoods.back(), changed by the loop over the remaining particles, from the last one (91-98) *)
Fixpoint put_last (pop : list particle) (hs : list hood) (ks : list nat) : res (list hood) :=
  match hs with
  | [] => UB
  | [h] => let! h' := put_all pop h ks in Ok [h']
  | h :: r => let! l := put_last pop r ks in Ok (h :: l)
  end.
Definition linear_setup (size : nat) (pop : list particle) : res (list hood) :=
  let n := length pop in
  if n <=? size then Throw
  else if size =? 0 then UB
  else
    let! hs := linear_hoods size pop (seq 0 (n / size)) in
    if n mod size =? 0 then Ok hs else put_last pop hs (rev (seq (n - n mod size) (n mod size))).

(** the test of isSetup around it (64, 100-113): a topology already set up is left as it is *)
Definition linear_setup_again (size : nat) (known : option (list hood)) (pop : list particle) : res (list hood) :=
  match known with Some hs => Ok hs | None => linear_setup size pop end.

(** retrieveNeighborhoodByIndice (eoLinearTopology.h:120-131): the number of neighborhoods if there is none *)
Fixpoint retrieve (hs : list hood) (k : nat) : nat :=
  match hs with [] => 0 | h :: r => if contains h k then 0 else S (retrieve r k) end.

(** the first part of updateNeighborhood, the same in all the topologies (eoLinearTopology.h:139-145). The copy
    of the positions into bestPositions (one by one, for vectors of the same size) is one assignment. *)
Definition update_best (p : particle) : res particle :=
  let! v := fitness p in
  let! b := best_of p in
  if lt b v then if length (bpos p) =? length (pos p) then Ok (Particle (pos p) (vel p) (pos p) (fit p) v) else UB
  else Ok p.
(** the second part: replace the best of one neighborhood (148-152) *)
Definition update_hood (hs : list hood) (i : nat) (p : particle) : res (list hood) :=
  let! h := of_opt (nth_error hs i) in
  let! v := fitness p in
  let! b := fitness (lbest h) in
  Ok (if lt b v then set hs i (Hood (members h) p) else hs).
(** eoLinearTopology::updateNeighborhood (137-153) *)
Definition linear_update (hs : list hood) (p : particle) (k : nat) : res (particle * list hood) :=
  let! p' := update_best p in
  let! hs' := update_hood hs (retrieve hs k) p' in
  Ok (p', hs').
(** best(k) (160-165) *)
Definition linear_best (hs : list hood) (k : nat) : res particle :=
  let! h := of_opt (nth_error hs (retrieve hs k)) in Ok (lbest h).
(** globalBest() (171-189; the same in eoRingTopology.h:162-180) *)
Fixpoint global_loop (g : particle) (hs : list hood) : res particle :=
  match hs with
  | [] => Ok g
  | h :: r =>
      let! a := best_of g in
      let! b := best_of (lbest h) in
      global_loop (if lt a b then lbest h else g) r
  end.
Definition global_best (hs : list hood) : res particle :=
  match hs with [] => UB | h :: r => global_loop (lbest h) r end.

(** eoRingTopology::setup (eoRingTopology.h:63-79): (size + i - k + j) % size with k = neighborhoodSize / 2, in
    std::size_t; [k <= size + i] is assumed by taking the subtraction in nat *)
Definition ring_index (n size i j : nat) : nat := (n + i - size / 2 + j) mod n.
Fixpoint ring_hoods (size : nat) (pop : list particle) (is : list nat) : res (list hood) :=
  match is with
  | [] => Ok []
  | i :: r =>
      let! p := of_opt (nth_error pop i) in
      let! h := put_all pop (Hood [] p) (map (ring_index (length pop) size i) (seq 0 size)) in
      let! l := ring_hoods size pop r in Ok (h :: l)
  end.
Definition ring_setup (size : nat) (pop : list particle) : res (list hood) := ring_hoods size pop (seq 0 (length pop)).
(** the values of i in: for (unsigned i = -neighborhoodSize+1; i < neighborhoodSize; i++) (eoRingTopology.h:121),
    neighborhoodSize being an unsigned of 32 bits *)
Definition ring_start (size : Z) : Z := ((1 - size) mod 2 ^ 32)%Z.
Definition ring_range (size : Z) : list Z :=
  map (fun k => (ring_start size + Z.of_nat k)%Z) (seq 0 (Z.to_nat (size - ring_start size))).
(** updateNeighborhood (110-128): the neighborhood changed is (d + k + i) % d with d = _po.size(), the dimension of
    the particle *)
Fixpoint update_hoods (hs : list hood) (p : particle) (is : list nat) : res (list hood) :=
  match is with [] => Ok hs | i :: r => let! hs' := update_hood hs i p in update_hoods hs' p r end.
Definition ring_update (size : Z) (hs : list hood) (p : particle) (k : nat) : res (particle * list hood) :=
  let! p' := update_best p in
  let d := Z.of_nat (length (pos p)) in
  let is := map (fun i => ((d + Z.of_nat k + i) mod d)%Z) (ring_range size) in
  match is with
  | [] => Ok (p', hs)
  | _ => if (d =? 0)%Z then UB else let! hs' := update_hoods hs p' (map Z.to_nat is) in Ok (p', hs')
  end.

(** *** the algorithms *)
(** [W] is everything else that the user's functors read and change (random generator, weights, bounds) *)
Variable W : Type.
(** the new velocities of particle [k]; eoVelocity::operator() changes nothing else in it *)
Variable velocity : list hood -> particle -> nat -> W -> res (list V * W).
(** eoFlight::operator(): the new positions; the fitness is invalidated *)
Variable flight : particle -> W -> res (list A * W).
(** eoEvalFunc: a function of the positions, computed at each call *)
Variable eval : list A -> F.
(** topology.updateNeighborhood *)
Variable update : list hood -> particle -> nat -> res (particle * list hood).

(** the swarm, the neighborhoods, the rest, and the calls of eval so far: index and positions *)
Record swarm := Swarm { pop : list particle; hoods : list hood; world : W; log : list (nat * list A) }.

Definition step_velocity (s : swarm) (k : nat) : res swarm :=
  let! p := of_opt (nth_error (pop s) k) in
  let! (v, w) := velocity (hoods s) p k (world s) in
  Ok (Swarm (set (pop s) k (Particle (pos p) v (bpos p) (fit p) (best p))) (hoods s) w (log s)).
Definition step_flight (s : swarm) (k : nat) : res swarm :=
  let! p := of_opt (nth_error (pop s) k) in
  let! (x, w) := flight p (world s) in
  Ok (Swarm (set (pop s) k (Particle x (vel p) (bpos p) None (best p))) (hoods s) w (log s)).
Definition step_eval (s : swarm) (k : nat) : res swarm :=
  let! p := of_opt (nth_error (pop s) k) in
  Ok (Swarm (set (pop s) k (Particle (pos p) (vel p) (bpos p) (Some (eval (pos p))) (best p))) (hoods s) (world s) (log s ++ [(k, pos p)])).
Definition step_update (s : swarm) (k : nat) : res swarm :=
  let! p := of_opt (nth_error (pop s) k) in
  let! (p', hs) := update (hoods s) p k in
  Ok (Swarm (set (pop s) k p') hs (world s) (log s)).
Fixpoint over (step : swarm -> nat -> res swarm) (ks : list nat) (s : swarm) : res swarm :=
  match ks with [] => Ok s | k :: r => let! s' := step s k in over step r s' end.

(** one turn of eoEasyPSO (eoEasyPSO.h:138-152) *)
Definition async_turn (s : swarm) : res swarm :=
  over (fun s k => let! s1 := step_velocity s k in let! s2 := step_flight s1 k in let! s3 := step_eval s2 k in step_update s3 k)
    (seq 0 (length (pop s))) s.
(** one turn of eoSyncEasyPSO (eoSyncEasyPSO.h:194-204), with eoVelocity::apply and updateNeighborhood(pop)
    (eoVelocity.h:48-73), eoFlight::apply (eoFlight.h:45-52) and a loop evaluation *)
Definition sync_turn (s : swarm) : res swarm :=
  let ks := seq 0 (length (pop s)) in
  let! s1 := over step_velocity ks s in
  let! s2 := over step_flight ks s1 in
  let! s3 := over step_eval ks s2 in
  over step_update ks s3.
(** do { turn } while (continuator): one answer per turn *)
Fixpoint turns (turn : swarm -> res swarm) (answers : list bool) (s : swarm) : res swarm :=
  let! s' := turn s in
  match answers with
  | [] => NoDraw
  | false :: _ => Ok s'
  | true :: r => turns turn r s'
  end.

(** eoInitializer::operator() (eoInitializer.h:105-113): evaluate, initialise the velocities, then
    eoFirstIsBestInit (eoParticleBestInit.h:68-77), then topology.setup *)
Variable setup : list particle -> res (list hood).
Variable init_velocity : particle -> W -> res (list V * W).
Definition step_init_velocity (s : swarm) (k : nat) : res swarm :=
  let! p := of_opt (nth_error (pop s) k) in
  let! (v, w) := init_velocity p (world s) in
  Ok (Swarm (set (pop s) k (Particle (pos p) v (bpos p) (fit p) (best p))) (hoods s) w (log s)).
Definition step_init_best (s : swarm) (k : nat) : res swarm :=
  let! p := of_opt (nth_error (pop s) k) in
  let! v := fitness p in
  Ok (Swarm (set (pop s) k (Particle (pos p) (vel p) (pos p) (fit p) v)) (hoods s) (world s) (log s)).
Definition initialise (s : swarm) : res swarm :=
  let ks := seq 0 (length (pop s)) in
  let! s1 := over step_eval ks s in
  let! s2 := over step_init_velocity ks s1 in
  let! s3 := over step_init_best ks s2 in
  let! hs := setup (pop s3) in
  Ok (Swarm (pop s3) hs (world s3) (log s3)).
Definition pso (turn : swarm -> res swarm) (answers : list bool) (s : swarm) : res swarm :=
  let! s' := initialise s in turns turn answers s'.
End Pso.
Arguments pos {A V F}. Arguments vel {A V F}. Arguments bpos {A V F}. Arguments fit {A V F}. Arguments best {A V F}.
Arguments Particle {A V F}. Arguments members {A V F}. Arguments lbest {A V F}. Arguments Hood {A V F}.
Arguments pop {A V F W}. Arguments hoods {A V F W}. Arguments world {A V F W}. Arguments log {A V F W}. Arguments Swarm {A V F W}.

(** *** real positions and velocities, as exact rationals *)
Section Real.
Variable F : Type.
Notation particle := (particle Q Q F).
(** eoRealVectorBounds, after adjust_size: what minimum(j) and maximum(j) are, when there are such bounds *)
Variable bounds : nat -> option Q * option Q.
(** std::max(a, b) is b if a < b, std::min(a, b) is b if b < a *)
Definition std_max (a b : Q) : Q := if Qlt_le_dec a b then b else a.
Definition std_min (a b : Q) : Q := if Qlt_le_dec b a then b else a.
(** the bounds check (eoStandardVelocity.h:153-157, eoStandardFlight.h:90-94) *)
Definition check (j : nat) (x : Q) : Q :=
  let x := match fst (bounds j) with Some m => std_max x m | None => x end in
  match snd (bounds j) with Some m => std_min x m | None => x end.

Fixpoint for_each (j : nat) (xs : list Q) (f : nat -> Q -> res Q) : res (list Q) :=
  match xs with [] => Ok [] | x :: r => let! y := f j x in let! l := for_each (S j) r f in Ok (y :: l) end.
(** all the components; velocities beyond the dimension of the particle are left as they are *)
Definition velocities (p : particle) (f : nat -> Q -> res Q) : res (list Q) :=
  let! l := for_each 0 (pos p) f in Ok (l ++ skipn (length (pos p)) (vel p)).
(** the value of component j before the check *)
Definition raw (omega coeff r1 r2 r3 : Q) (p lb gb : particle) (j : nat) (x : Q) : res Q :=
  let! v := of_opt (nth_error (vel p) j) in
  let! b := of_opt (nth_error (bpos p) j) in
  let! l := of_opt (nth_error (pos lb) j) in
  let! g := of_opt (nth_error (pos gb) j) in
  Ok (coeff * (omega * v + r1 * (b - x) + r2 * (l - x) + r3 * (g - x)))%Q.
(** eoStandardVelocity (eoStandardVelocity.h:134-161): [u1] and [u2] are the numbers drawn in [0,1) *)
Definition standard_velocity (omega c1 c2 u1 u2 : Q) (p lb : particle) : res (list Q) :=
  velocities p (fun j x => let! v := raw omega 1 (u1 * c1) (u2 * c2) 0 p lb lb j x in Ok (check j v)).
(** eoConstrictedVelocity (eoConstrictedVelocity.h:136-166) *)
Definition constricted_velocity (coeff c1 c2 u1 u2 : Q) (p lb : particle) : res (list Q) :=
  velocities p (fun j x => let! v := raw 1 coeff (u1 * c1) (u2 * c2) 0 p lb lb j x in Ok (check j v)).
(** eoExtendedVelocity (eoExtendedVelocity.h:144-176), with the global best [gb] *)
Definition extended_velocity (omega c1 c2 c3 u1 u2 u3 : Q) (p lb gb : particle) : res (list Q) :=
  velocities p (fun j x => let! v := raw omega 1 (u1 * c1) (u2 * c2) (u3 * c3) p lb gb j x in Ok (check j v)).
(** eoStandardFlight (eoStandardFlight.h:78-102): the new positions *)
Definition standard_flight (p : particle) : res (list Q) :=
  for_each 0 (pos p) (fun j x => let! v := of_opt (nth_error (vel p) j) in Ok (check j (x + v)%Q)).
(** the functors of a swarm on a linear topology; the world is the sequence of the numbers drawn *)
Definition standard_velocity_op (lt : F -> F -> bool) (omega c1 c2 : Q) (hs : list (hood Q Q F)) (p : particle) (k : nat) (w : nat -> Q)
  : res (list Q * (nat -> Q)) :=
  let! lb := linear_best Q Q F hs k in
  let! v := standard_velocity omega c1 c2 (w 0) (w 1) p lb in
  Ok (v, fun i => w (2 + i)).
Definition constricted_velocity_op (lt : F -> F -> bool) (coeff c1 c2 : Q) (hs : list (hood Q Q F)) (p : particle) (k : nat) (w : nat -> Q)
  : res (list Q * (nat -> Q)) :=
  let! lb := linear_best Q Q F hs k in
  let! v := constricted_velocity coeff c1 c2 (w 0) (w 1) p lb in
  Ok (v, fun i => w (2 + i)).
(** eoExtendedVelocity calls topology.globalBest() *)
Definition extended_velocity_op (lt : F -> F -> bool) (omega c1 c2 c3 : Q) (hs : list (hood Q Q F)) (p : particle) (k : nat) (w : nat -> Q)
  : res (list Q * (nat -> Q)) :=
  let! lb := linear_best Q Q F hs k in
  let! gb := global_best Q Q F lt hs in
  let! v := extended_velocity omega c1 c2 c3 (w 0) (w 1) (w 2) p lb gb in
  Ok (v, fun i => w (3 + i)).
Definition standard_flight_op (p : particle) (w : nat -> Q) : res (list Q * (nat -> Q)) :=
  let! x := standard_flight p in Ok (x, w).
End Real.
