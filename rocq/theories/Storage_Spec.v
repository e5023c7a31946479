(** The syntax of locations, and what storage means to its user. *)
From Verif Require Import Base Storage_Model.
Local Open Scope N_scope.

(** A name of a file: no colon, backslash or slash, and not one of the two special names. *)
Definition file_name (n : ustr) : Prop :=
  n <> [] /\ (forall c, In c n -> c <> 58 /\ c <> 92 /\ c <> 47) /\ n <> [46] /\ n <> [46; 46].
(** A name of a drive: no colon, backslash, slash or dot. *)
Definition drive_name (d : ustr) : Prop :=
  d <> [] /\ forall c, In c d -> c <> 58 /\ c <> 92 /\ c <> 47 /\ c <> 46.

(** A path names the whole drive or a file in it. *)
Inductive path_names : ustr -> option ustr -> Prop :=
| PN_empty : path_names [] None
| PN_root : path_names [47] None
| PN_file n : file_name n -> path_names n (Some n)
| PN_rooted n : file_name n -> path_names (47 :: n) (Some n).

(** The text of a location, the drive it names, if any, and the file it names, if any. *)
Inductive location_names : ustr -> option ustr -> option ustr -> Prop :=
| LN_path p n : path_names p n -> location_names p None n
| LN_drive d p n : drive_name d -> path_names p n -> location_names (d ++ 58 :: p) (Some d) n.

(** What we need to know about Unicode's conversion to upper case. *)
Record upper_ok (uc : N -> list N) : Prop := {
  uo_some : forall c, uc c <> [];
  uo_ascii : forall c, c < 128 -> uc c = [upper1 c];
  uo_again : forall c c', In c' (uc c) -> uc c' = [c'];
  uo_special : forall c c', In c' (uc c) -> c' < 128 -> c < 128 \/ (65 <= c' <= 90)
}.

(** A location with an explicit drive, with the current one by default. *)
Definition at_drive (uc : N -> list N) (st : storage) (d : option ustr) : ustr :=
  match d with Some d => flat_map uc d | None => st_current st end.
(** [raw] names the file [n] of the mounted or unmounted drive [k]. *)
Definition names_file uc st (raw k n : ustr) : Prop :=
  exists d, location_names raw d (Some n) /\ k = at_drive uc st d.
Definition names_root uc st (raw k : ustr) : Prop :=
  exists d, location_names raw d None /\ k = at_drive uc st d.

(** * Operations *)

Inductive op :=
| OMount (name uri : ustr)
| OUnmount (name : ustr)
| OCd (raw : ustr)
| OPut (raw : ustr) (content : bytes)
| ODelete (raw : ustr)
| OCopy (src dest : ustr)
| OUpdateAcls (raw : ustr) (add remove : list ustr)
| ORegister (scheme : ustr) (f : ustr -> res io_error drive).

(** The result of an operation; [None] is a panic. *)
Definition perform uc lc (o : op) (st : storage) : option (res io_error storage) :=
  match o with
  | OMount name uri => Some (mount uc lc name uri st)
  | OUnmount name => unmount uc name st
  | OCd raw => Some (cd uc raw st)
  | OPut raw content => put uc raw content st
  | ODelete raw => delete uc raw st
  | OCopy src dest => copy uc src dest st
  | OUpdateAcls raw add remove => update_acls uc raw add remove st
  | ORegister scheme f => Some (Ok (register_scheme scheme f st))
  end.

(** A drive made by anyone has each file, and each reader of a file, once. *)
Definition drive_ok (d : drive) : Prop :=
  match d with
  | DMem ps => NoDup (map fst ps) /\ forall n c rs, In (n, (c, rs)) ps -> file_name n /\ NoDup rs
  | DDemos ds => NoDup (map fst ds)
  end.
Definition op_ok (o : op) : Prop :=
  match o with
  | ORegister _ f => forall target d, f target = Ok d -> drive_ok d
  | _ => True
  end.

(** The states after any operations; those that fail change nothing. *)
Inductive reachable uc lc : storage -> Prop :=
| R_start : reachable uc lc storage_default
| R_op st o st' : reachable uc lc st -> op_ok o -> perform uc lc o st = Some (Ok st') -> reachable uc lc st'.

(** Strictly increasing in the order of code points. *)
Fixpoint less (a b : ustr) : Prop :=
  match a, b with
  | _, [] => False
  | [], _ :: _ => True
  | x :: a', y :: b' => x < y \/ (x = y /\ less a' b')
  end.
Fixpoint increasing (l : list ustr) : Prop :=
  match l with
  | [] => True
  | a :: r => (match r with [] => True | b :: _ => less a b end) /\ increasing r
  end.

(** * Access control *)

(** One update: readers added and readers removed.  The most recent update comes first. *)
Fixpoint granted (r : ustr) (updates : list (list ustr * list ustr)) : Prop :=
  match updates with
  | [] => False
  | (add, remove) :: earlier => In r add \/ (~ In r remove /\ granted r earlier)
  end.
