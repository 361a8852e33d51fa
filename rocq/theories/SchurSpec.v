(** Vocabulary for bordered Newton steps: states are pairs (function, parameter). *)
From Coq Require Import Reals List.
From Coquelicot Require Import Coquelicot.
Import ListNotations.
Open Scope R_scope.
(** [core] is the inverse of [J] *)
Definition inverse_of {X Y : ModuleSpace R_Ring} (J : X -> Y) (core : Y -> X) : Prop := (forall r, J (core r) = r) /\ (forall x, core (J x) = x).
(** J u + a Fa *)
Definition aug {X Y : ModuleSpace R_Ring} (J : X -> Y) (Fa : Y) (s : X * R) : Y := plus (J (fst s)) (scal (snd s) Fa).
(** (u, a) is in the kernel of [J Fa] *)
Definition kernel_vec {X Y : ModuleSpace R_Ring} (J : X -> Y) (Fa : Y) (s : X * R) : Prop := aug J Fa s = zero.
(** inner product of states *)
Definition pair_ip {X : ModuleSpace R_Ring} (ip : X -> X -> R) (s t : X * R) : R := ip (fst s) (fst t) + snd s * snd t.
(** A coefficient column cut off or padded with zeros to n entries. *)
Definition padded (n : nat) (c : list R) : list R := firstn n (c ++ repeat 0 n).
(** The coefficients of a system, one column after the other. *)
Definition stacked (n : nat) (cols : list (list R)) : list R := concat (map (padded n) cols).
