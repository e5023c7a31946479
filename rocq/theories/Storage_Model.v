(** Model of storage: std/src/storage/mod.rs, std/src/storage/mem.rs and the demos drive of
    repl/src/demos.rs.

    Simplified: errors carry their kind and not their message; [async] is dropped; dates, quotas
    and disk space in listings, and the system paths of files, are left out.  The drives modelled
    are the in-memory one and the demos one; the directory drive (storage/fs.rs, the file system
    of the host) and the cloud drive (client/src/drive.rs, the network) are not. *)
From Coq Require Import String.
From Verif Require Import Base.
Local Open Scope list_scope.
Local Open Scope N_scope.

(** [io::ErrorKind]. *)
Inductive io_error := InvalidInput | NotFound | AlreadyExists | PermissionDenied | Other.

Definition colon : N := 58.
Definition backslash : N := 92.
Definition slash : N := 47.
Definition dot : N := 46.

(** Rust's [str::split(':')]: the pieces between the separators, at least one. *)
Fixpoint split_on (sep : N) (s : ustr) : list ustr :=
  match s with
  | [] => [[]]
  | c :: r =>
      if c =? sep then [] :: split_on sep r
      else match split_on sep r with
           | p :: ps => (c :: p) :: ps
           | [] => [[c]]
           end
  end.

(** Order of Rust's [String]: that of the UTF-8 bytes, which is that of the code points. *)
Fixpoint ustr_cmp (a b : ustr) : comparison :=
  match a, b with
  | [], [] => Eq
  | [], _ => Lt
  | _, [] => Gt
  | x :: a', y :: b' => match x ?= y with Eq => ustr_cmp a' b' | c => c end
  end.

(** [BTreeMap::insert]: a map sorted by key. *)
Fixpoint bt_insert {A} (k : ustr) (v : A) (m : list (ustr * A)) : list (ustr * A) :=
  match m with
  | [] => [(k, v)]
  | (k', v') :: r =>
      match ustr_cmp k k' with
      | Lt => (k, v) :: m
      | Eq => (k, v) :: r
      | Gt => (k', v') :: bt_insert k v r
      end
  end.

(** [HashMap::get], [insert] and [remove], with the entries in arbitrary order. *)
Fixpoint hm_get {A} (k : ustr) (m : list (ustr * A)) : option A :=
  match m with
  | [] => None
  | (k', v) :: r => if ustr_eqb k k' then Some v else hm_get k r
  end.
Definition hm_remove {A} (k : ustr) (m : list (ustr * A)) : list (ustr * A) :=
  filter (fun e => negb (ustr_eqb k (fst e))) m.
Definition hm_insert {A} (k : ustr) (v : A) (m : list (ustr * A)) : list (ustr * A) :=
  (k, v) :: hm_remove k m.

(** [HashSet::insert] and [remove]. *)
Definition hs_remove (k : ustr) (s : list ustr) : list ustr := filter (fun e => negb (ustr_eqb k e)) s.
Definition hs_insert (k : ustr) (s : list ustr) : list ustr := k :: hs_remove k s.

(** [Vec<String>::sort]. *)
Fixpoint sort_insert (k : ustr) (l : list ustr) : list ustr :=
  match l with
  | [] => [k]
  | k' :: r => match ustr_cmp k k' with Gt => k' :: sort_insert k r | _ => k :: l end
  end.
Fixpoint ustr_sort (l : list ustr) : list ustr :=
  match l with [] => [] | k :: r => sort_insert k (ustr_sort r) end.

(** * Drives *)

(** Contents are bytes. *)
Definition bytes := list N.

Inductive drive :=
(** mem.rs 24-34: contents and readers of each file. *)
| DMem (programs : list (ustr * (bytes * list ustr)))
(** demos.rs 30-36. *)
| DDemos (demos : list (ustr * bytes)).

(** mem.rs 38-43, demos.rs 120-122. *)
Definition drive_delete (name : ustr) (d : drive) : res io_error drive :=
  match d with
  | DMem ps => match hm_get name ps with Some _ => Ok (DMem (hm_remove name ps)) | None => Err NotFound end
  | DDemos _ => Err PermissionDenied
  end.

(** mem.rs 45-53, demos.rs 124-142: names and lengths. *)
Definition drive_enumerate (d : drive) : list (ustr * nat) :=
  match d with
  | DMem ps => fold_right (fun e m => bt_insert (fst e) (length (fst (snd e))) m) [] ps
  | DDemos ds => fold_right (fun e m => bt_insert (fst e) (length (snd e)) m) [] ds
  end.

(** mem.rs 55-60, demos.rs 144-153. *)
Definition drive_get (name : ustr) (d : drive) : res io_error bytes :=
  match d with
  | DMem ps => match hm_get name ps with Some (content, _) => Ok content | None => Err NotFound end
  | DDemos ds => match hm_get (ascii_upper name) ds with Some content => Ok content | None => Err NotFound end
  end.

(** mem.rs 62-73, mod.rs 155-158. *)
Definition drive_get_acls (name : ustr) (d : drive) : res io_error (list ustr) :=
  match d with
  | DMem ps => match hm_get name ps with Some (_, readers) => Ok (ustr_sort readers) | None => Err NotFound end
  | DDemos _ => Err Other
  end.

(** mem.rs 75-82, demos.rs 155-157. *)
Definition drive_put (name : ustr) (content : bytes) (d : drive) : res io_error drive :=
  match d with
  | DMem ps =>
      match hm_get name ps with
      | Some (_, readers) => Ok (DMem (hm_insert name (content, readers) ps))
      | None => Ok (DMem (hm_insert name (content, []) ps))
      end
  | DDemos _ => Err PermissionDenied
  end.

(** mem.rs 84-101, mod.rs 165-172. *)
Definition drive_update_acls (name : ustr) (add remove : list ustr) (d : drive) : res io_error drive :=
  match d with
  | DMem ps =>
      match hm_get name ps with
      | Some (content, readers) =>
          let readers := fold_left (fun s r => hs_remove r s) remove readers in
          let readers := fold_left (fun s r => hs_insert r s) add readers in
          Ok (DMem (hm_insert name (content, readers) ps))
      | None => Err NotFound
      end
  | DDemos _ => Err Other
  end.

(** mem.rs 108-119. *)
Definition memory_factory (target : ustr) : res io_error drive :=
  match target with [] => Ok (DMem []) | _ => Err InvalidInput end.

(** * Locations *)

Section Case.
(** [char::to_uppercase] and [char::to_lowercase], whose tables are Unicode's. *)
Variables uc lc : N -> list N.

(** mod.rs 200-202. *)
Definition drive_name_valid (s : ustr) : bool :=
  negb (match s with [] => true | _ => false end) &&
  negb (existsb (fun c => (c =? colon) || (c =? backslash) || (c =? slash) || (c =? dot)) s).

(** mod.rs 188-197: [drive.to_uppercase()]. *)
Definition drive_key (s : ustr) : res io_error ustr :=
  if negb (drive_name_valid s) then Err InvalidInput else Ok (flat_map uc s).

(** mod.rs 217-220. *)
Record location := mkLocation { l_drive : option ustr; l_path : ustr }.

(** mod.rs 269-271. *)
Definition is_path_valid (s : ustr) : bool :=
  negb (match s with [] => true | _ => false end) &&
  negb (existsb (fun c => (c =? colon) || (c =? backslash)) s).

Definition starts_with_slash (s : ustr) : bool := match s with c :: _ => c =? slash | [] => false end.

(** mod.rs 237-258. *)
Definition check_path (path : ustr) : res io_error ustr :=
  match path with
  | [] => Ok [slash]
  | _ =>
      if negb (is_path_valid path) || ustr_eqb path [dot] || ustr_eqb path [dot; dot]
         || ustr_eqb path [slash; dot] || ustr_eqb path [slash; dot; dot] then Err InvalidInput
      else
        let slashes := fold_left (fun a c => if c =? slash then a + 1 else a) path 0 in
        if ((slashes =? 1) && negb (starts_with_slash path)) || (1 <? slashes) then Err InvalidInput
        else Ok path
  end.

(** mod.rs 224-261. *)
Definition location_new (s : ustr) : res io_error location :=
  match split_on colon s with
  | [d; path] =>
      match drive_key d with
      | Ok k => match check_path path with Ok p => Ok (mkLocation (Some k) p) | Err e => Err e end
      | Err e => Err e
      end
  | [path] => match check_path path with Ok p => Ok (mkLocation None p) | Err e => Err e end
  | _ => Err InvalidInput
  end.

(** mod.rs 264-266. *)
Definition with_drive_root (k : ustr) : location := mkLocation (Some k) [slash].

(** mod.rs 274-282. *)
Definition leaf_name (l : location) : option ustr :=
  if ustr_eqb (l_path l) [slash] then None
  else if starts_with_slash (l_path l) then Some (skipn 1 (l_path l))
  else Some (l_path l).

(** mod.rs 285-294. *)
Definition set_leaf_name (name : ustr) (l : location) : location :=
  if starts_with_slash (l_path l) then mkLocation (l_drive l) (slash :: name)
  else mkLocation (l_drive l) name.

(** mod.rs 300-330. *)
Definition is_ascii_lowercase (c : N) : bool := (97 <=? c) && (c <=? 122).
Definition set_extension (extension : ustr) (l : location) : location :=
  match leaf_name l with
  | None => l
  | Some name =>
      match name with
      | [] => l
      | _ =>
          if existsb (fun c => c =? dot) name then l
          else
            let as_uppercase := negb (existsb is_ascii_lowercase name) in
            mkLocation (l_drive l)
              (l_path l ++ [dot] ++ (if as_uppercase then ascii_upper extension else extension))
      end
  end.

(** mod.rs 333-340. *)
Definition location_text (l : location) : ustr :=
  match l_drive l with
  | Some k => k ++ [colon] ++ l_path l
  | None => l_path l
  end.

(** mod.rs 349-357.  [find_sub] is [uri.find("://")]: the text before and after it. *)
Fixpoint find_css (before s : ustr) : option (ustr * ustr) :=
  match s with
  | c1 :: r =>
      match r with
      | c2 :: c3 :: rest =>
          if (c1 =? colon) && (c2 =? slash) && (c3 =? slash) then Some (rev before, rest)
          else find_css (c1 :: before) r
      | _ => None
      end
  | [] => None
  end.
Definition split_uri (uri : ustr) : res io_error (ustr * ustr) :=
  match find_css [] uri with
  | Some (scheme, path) => match scheme with [] => Err InvalidInput | _ => Ok (scheme, path) end
  | None => Err InvalidInput
  end.

(** * Storage *)

(** mod.rs 360-378. *)
Record storage := mkStorage {
  st_factories : list (ustr * (ustr -> res io_error drive));
  st_drives : list (ustr * (ustr * drive)); (* uri and drive *)
  st_current : ustr
}.

Definition with_drives ds (st : storage) : storage := mkStorage (st_factories st) ds (st_current st).

(** mod.rs 380-394. *)
Definition memory_scheme : ustr := u "memory".
Definition storage_default : storage :=
  mkStorage [(memory_scheme, memory_factory)] [(u "MEMORY", (u "memory://", DMem []))] (u "MEMORY").

(** mod.rs 399-403; the asserts are the caller's duty. *)
Definition register_scheme (scheme : ustr) (f : ustr -> res io_error drive) (st : storage) : storage :=
  mkStorage (hm_insert scheme f (st_factories st)) (st_drives st) (st_current st).

(** mod.rs 411-417. *)
Definition in_current (st : storage) (l : location) : location :=
  match l_drive l with None => mkLocation (Some (st_current st)) (l_path l) | Some _ => l end.
Definition make_canonical (st : storage) (raw : ustr) : res io_error ustr :=
  match location_new raw with
  | Ok l => Ok (location_text (in_current st l))
  | Err e => Err e
  end.

(** mod.rs 423-440. *)
Definition make_canonical_with_extension (st : storage) (raw extension : ustr) : res io_error ustr :=
  match location_new raw with
  | Ok l =>
      match leaf_name (in_current st l) with
      | None => Err NotFound
      | Some _ => Ok (location_text (set_extension extension (in_current st l)))
      end
  | Err e => Err e
  end.

(** mod.rs 445-456. *)
Definition attach (name uri : ustr) (d : drive) (st : storage) : res io_error storage :=
  match drive_key name with
  | Ok k =>
      match hm_get k (st_drives st) with
      | Some _ => Err AlreadyExists
      | None => Ok (with_drives (hm_insert k (uri, d) (st_drives st)) st)
      end
  | Err e => Err e
  end.

(** mod.rs 461-473. *)
Definition mount (name uri : ustr) (st : storage) : res io_error storage :=
  match split_uri uri with
  | Ok (scheme, path) =>
      match hm_get (flat_map lc scheme) (st_factories st) with
      | Some f => match f path with Ok d => attach name uri d st | Err e => Err e end
      | None => Err InvalidInput
      end
  | Err e => Err e
  end.

(** mod.rs 479-499.  [None] is the failure of the assert. *)
Definition unmount (name : ustr) (st : storage) : option (res io_error storage) :=
  match drive_key name with
  | Ok k =>
      match hm_get k (st_drives st) with
      | None => Some (Err NotFound)
      | Some _ =>
          if ustr_eqb (st_current st) k then Some (Err AlreadyExists)
          else if Nat.ltb 1 (length (st_drives st)) then Some (Ok (with_drives (hm_remove k (st_drives st)) st))
          else None
      end
  | Err e => Some (Err e)
  end.

(** mod.rs 503-509. *)
Definition mounted (st : storage) : list (ustr * ustr) :=
  fold_right (fun e m => bt_insert (fst e) (fst (snd e)) m) [] (st_drives st).

(** mod.rs 515-534. *)
Definition cd (raw : ustr) (st : storage) : res io_error storage :=
  match location_new raw with
  | Ok l =>
      match leaf_name l with
      | Some _ => Err InvalidInput
      | None =>
          match l_drive l with
          | Some k =>
              match hm_get k (st_drives st) with
              | None => Err AlreadyExists
              | Some _ => Ok (mkStorage (st_factories st) (st_drives st) k)
              end
          | None => Ok st
          end
      end
  | Err e => Err e
  end.

(** mod.rs 537-539. *)
Definition cwd (st : storage) : ustr := location_text (with_drive_root (st_current st)).

(** mod.rs 542-577.  [None] is the failure of the [expect]. *)
Definition drive_of (st : storage) (l : location) : ustr :=
  match l_drive l with Some k => k | None => st_current st end.
Definition get_drive (st : storage) (l : location) : option (res io_error (ustr * drive)) :=
  match l_drive l with
  | Some k => match hm_get k (st_drives st) with Some m => Some (Ok m) | None => Some (Err NotFound) end
  | None => match hm_get (st_current st) (st_drives st) with Some m => Some (Ok m) | None => None end
  end.

(** An operation on a file of a drive, with the new drive if it has one. *)
Definition on_file {A} (st : storage) (l : location) (f : ustr -> drive -> res io_error A) : option (res io_error A) :=
  match leaf_name l with
  | Some name =>
      match get_drive st l with
      | Some (Ok (_, d)) => Some (f name d)
      | Some (Err e) => Some (Err e)
      | None => None
      end
  | None => Some (Err NotFound)
  end.
Definition with_drive (st : storage) (l : location) (d : drive) : storage :=
  match hm_get (drive_of st l) (st_drives st) with
  | Some (uri, _) => with_drives (hm_insert (drive_of st l) (uri, d) (st_drives st)) st
  | None => st
  end.
Definition changing (st : storage) (l : location) (f : ustr -> drive -> res io_error drive) : option (res io_error storage) :=
  match on_file st l f with
  | Some (Ok d) => Some (Ok (with_drive st l d))
  | Some (Err e) => Some (Err e)
  | None => None
  end.

(** mod.rs 580-589. *)
Definition delete (raw : ustr) (st : storage) : option (res io_error storage) :=
  match location_new raw with
  | Ok l => changing st l drive_delete
  | Err e => Some (Err e)
  end.

(** mod.rs 592-601. *)
Definition enumerate (raw : ustr) (st : storage) : option (res io_error (list (ustr * nat))) :=
  match location_new raw with
  | Ok l =>
      match leaf_name l with
      | Some _ => Some (Err NotFound)
      | None =>
          match get_drive st l with
          | Some (Ok (_, d)) => Some (Ok (drive_enumerate d))
          | Some (Err e) => Some (Err e)
          | None => None
          end
      end
  | Err e => Some (Err e)
  end.

(** mod.rs 605-619. *)
Definition get_location (st : storage) (l : location) : option (res io_error bytes) := on_file st l drive_get.
Definition get (raw : ustr) (st : storage) : option (res io_error bytes) :=
  match location_new raw with
  | Ok l => get_location st l
  | Err e => Some (Err e)
  end.

(** mod.rs 622-631. *)
Definition get_acls (raw : ustr) (st : storage) : option (res io_error (list ustr)) :=
  match location_new raw with
  | Ok l => on_file st l drive_get_acls
  | Err e => Some (Err e)
  end.

(** mod.rs 635-654. *)
Definition put_location (st : storage) (l : location) (content : bytes) : option (res io_error storage) :=
  changing st l (fun name => drive_put name content).
Definition put (raw : ustr) (content : bytes) (st : storage) : option (res io_error storage) :=
  match location_new raw with
  | Ok l => put_location st l content
  | Err e => Some (Err e)
  end.

(** mod.rs 658-672. *)
Definition update_acls (raw : ustr) (add remove : list ustr) (st : storage) : option (res io_error storage) :=
  match location_new raw with
  | Ok l => changing st l (fun name => drive_update_acls name add remove)
  | Err e => Some (Err e)
  end.

(** mod.rs 684-703. *)
Definition copy (raw_src raw_dest : ustr) (st : storage) : option (res io_error storage) :=
  match location_new raw_src with
  | Err e => Some (Err e)
  | Ok src =>
      match leaf_name src with
      | None => Some (Err NotFound)
      | Some src_name =>
          match location_new raw_dest with
          | Err e => Some (Err e)
          | Ok dest =>
              let dest := match leaf_name dest with None => set_leaf_name src_name dest | Some _ => dest end in
              match get_location st src with
              | Some (Ok content) => put_location st dest content
              | Some (Err e) => Some (Err e)
              | None => None
              end
          end
      end
  end.

End Case.
