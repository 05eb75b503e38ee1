(** What an address space allows, independent of how the code tests it. *)
From Coq Require Import List Bool.
Import ListNotations.
From Verif Require Import M_Space.
(** code running on the host may touch host and unified memory, device libraries device and unified memory *)
Definition host_may (s : space) : Prop := s = SHost \/ s = SUnified.
Definition device_may (s : space) : Prop := s = SDevice \/ s = SUnified.
Definition safe (a : action) : Prop :=
  match a with
  | HostLoop l => Forall host_may l
  | DeviceCall l => Forall device_may l
  | Copy d s => d <> SNone /\ s <> SNone
  | Reject | Throws | Nothing => True
  end.
(** the leaves do not mix device and unified memory *)
Definition unmixed (e : sexpr) : Prop := ~ (In SDevice (leaves e) /\ In SUnified (leaves e)).
(** arrays in memory are in host, device or unified memory *)
Definition in_memory (s : space) : Prop := s <> SNone.
(** the part of a list before the first unified space *)
Fixpoint before_unified (l : list space) : list space := match l with [] => [] | SUnified :: _ => [] | s :: l' => s :: before_unified l' end.
Definition greatest (m : space) (l : list space) : Prop := In m l /\ forall s, In s l -> space_num s <= space_num m.

(** memory that the host, or the device, can reach as a whole *)
Definition reachable (l : list space) : Prop := Forall host_may l \/ Forall device_may l.
(** the memory an action uses *)
Definition touches (a : action) : list space := match a with HostLoop l | DeviceCall l => l | Copy d s => [d; s] | Reject | Throws | Nothing => [] end.
Definition on_the_device (a : action) : Prop := match a with DeviceCall _ => True | _ => False end.
(** a wrapper of a library function: it is accepted exactly if the arguments can be reached as a whole, it then hands all of them to the library, and to the device library
    exactly if the device can reach all of them *)
Definition wraps (args : list space) (a : action) : Prop :=
  (a <> Reject <-> reachable args) /\ (a <> Reject -> exists buffers, touches a = args ++ buffers) /\ (on_the_device a <-> Forall device_may args).
