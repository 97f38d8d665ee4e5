(** * Global description of a distributed array

    [lay] is the (rank-independent) layout of a DistributedArray; [proj P L c r]
    is the object held by rank r when its local contents are [c r];
    [gproj P L x r] is rank r's object when the global array is [x]. *)
From Coq Require Import List Arith Bool.
From Verif Require Import Num Nda Mpi DArray.
Import ListNotations.

Record lay := Lay {
  l_gs : list nat;             (** global shape *)
  l_part : partition;
  l_axis : nat;
  l_ext : list nat;            (** SCATTER: extent of every rank along the axis *)
  l_mask : option (list nat)
}.

Definition off (e : list nat) (r : nat) : nat := sumn (firstn r e).

(** The layouts on P ranks that a user can have. *)
Definition lay_ok (P : nat) (L : lay) : Prop :=
  l_axis L < length (l_gs L) /\
  (l_part L = SCATTER -> length (l_ext L) = P /\ sumn (l_ext L) = nth (l_axis L) (l_gs L) 0) /\
  (forall m, l_mask L = Some m -> length m = P).

(** Ranks whose data rank r reduces over. *)
Definition group (P : nat) (mask : option (list nat)) (r : nat) : list nat :=
  match mask with
  | None => world P
  | Some m => filter (fun i => nth i m 0 =? nth r m 0) (world P)
  end.

Definition lshape (L : lay) (r : nat) : list nat :=
  if is_bc (l_part L) then l_gs L else setnth (l_axis L) (nth r (l_ext L) 0) (l_gs L).

Section L.
Context {S : num}.

Definition proj (P : nat) (L : lay) (c : nat -> nda S) (r : nat) : darr S :=
  DA (l_gs L) (world P) (l_part L) (l_axis L) (l_mask L) (group P (l_mask L) r) (lshape L r) (c r).

(** The part of the global array [x] owned by rank r. *)
Definition part_of (L : lay) (x : nda S) (r : nat) : nda S :=
  if is_bc (l_part L) then x else slice_ax (l_axis L) (off (l_ext L) r) (off (l_ext L) (r + 1)) x.

Definition gproj (P : nat) (L : lay) (x : nda S) (r : nat) : darr S := proj P L (part_of L x) r.

Definition garr_ok (L : lay) (x : nda S) : Prop := wfa x /\ shp x = l_gs L.

Definition loc_ok (P : nat) (L : lay) (c : nat -> nda S) : Prop :=
  forall r, r < P -> wfa (c r) /\ shp (c r) = lshape L r.
End L.
