(** The destruction of FSTrie shards (include/shard/FSTrie.h).  The other kinds of shards
    initialise every pointer that their destructors free. *)
From Coq Require Import List Arith ZArith NArith Lia Bool.
From Verif Require Import Base RecordModel BufferModel MergeModel StructModel ExtModel KindModel.
Import ListNotations.

(** FSTrie.h:38-41 and 77-80, 85-88 and 139-141: m_fst is not among the initialised members
    and is assigned only if the shard has records. *)
Definition fst_assigned (s : shard crec) : bool := 0 <? s_reccnt s.

(** FSTrie.h:144-147: [delete m_fst], of a pointer that was never assigned if the shard has
    no records ([FNull], as for the other uses of that pointer). *)
Definition fst_destroy (s : shard crec) : res unit :=
  if fst_assigned s then Ok tt else Fail FNull.

(** The constructors.  A shard is destroyed when the last version of the index that holds
    it is, or at once if it was built to be merged with another one; m_reccnt and m_fst
    stay as they are until then, so that it is tested here whether it can be. *)
Definition fst_shards (qlt : qorder crec) (literal : nat) : builders crec :=
  Builders (fun d v => do s <- trie_view literal d v; do _ <- fst_destroy s; Ok s)
           (fun ss => do s <- trie_merge qlt literal ss; do _ <- fst_destroy s; Ok s).

(** DynamicExtension.h:105-119, ExtensionStructure.h:47, InternalLevel.h:41: the shards of
    the current version.  (The next one is null and the shards of the previous one that
    are not also in the current one have been tested when they were built.) *)
Definition destroy_index (e : ext crec) : res unit :=
  match ep_ptr (e_cur e) with
  | Some ep => do _ <- map_res fst_destroy (concat (map lv_shards (st_levels (ep_struct ep)))); Ok tt
  | None => Ok tt
  end.

(** FSTrie.h:184-186; [size keys] is what the trie over [keys] reports. *)
Definition fst_mem (size : list (list N) -> nat) (d : list (wrapped crec)) : res nat :=
  match d with
  | [] => Fail FNull
  | _ => Ok (size (map (fun w => c_str (wrec w)) d))
  end.
