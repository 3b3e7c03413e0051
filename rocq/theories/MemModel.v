(** The memory usage that the index reports. *)
From Coq Require Import List Arith ZArith NArith Lia Bool.
From Verif Require Import Base RecordModel BufferModel MergeModel StructModel ExtModel ISAMModel VPModel.
Import ListNotations.

Section Mem.
Context {R : Type} {RO : RecOps R}.
(** ShardType::get_memory_usage and get_aux_memory_usage, as functions of the records. *)
Variable mem : list (wrapped R) -> res nat.
(** sizeof(Wrapped<R>). *)
Variable wsize : nat.

(** InternalLevel.h:250-259 (and 239-248): the shards in place; the pending one is not
    looked at. *)
Definition lv_mem (l : level R) : res nat :=
  do xs <- map_res (fun s => mem (s_data s)) (lv_shards l);
  Ok (sum_list xs).

(** ExtensionStructure.h:161-169 (and 176-185). *)
Definition st_mem (st : structure R) : res nat :=
  do xs <- map_res lv_mem (st_levels st);
  Ok (sum_list xs).

(** DynamicExtension.h:268-275, with MutableBuffer.h:118: the buffer and the shards. *)
Definition get_memory_usage (e : ext R) : res (ext R * nat) :=
  do (e1, ep) <- get_active_epoch e;
  do m <- st_mem (ep_struct ep);
  do e2 <- end_job e1 ep;
  Ok (e2, b_cap (e_buf e1) * wsize + m).

(** DynamicExtension.h:285-291: the shards only; the filter of the buffer
    (MutableBuffer.h:120-122) is left out. *)
Definition get_aux_memory_usage (e : ext R) : res (ext R * nat) :=
  do (e1, ep) <- get_active_epoch e;
  do m <- st_mem (ep_struct ep);
  do e2 <- end_job e1 ep;
  Ok (e2, m).
End Mem.

(** ISAMTree.h:122 with NODE_SZ = 256 (35): the inner nodes (188-192), of which a shard
    without records has none (64, 86).  The array of the records is not counted, nor is
    m_alloc_size. *)
Definition isam_mem {R} {KO : KeyOps R} (F L : nat) (d : list (wrapped R)) : res nat :=
  do t <- isam_build F L d;
  Ok (256 * i_cnt t).

(** Alias.h:149-151. *)
Definition alias_mem {R} (d : list (wrapped R)) : res nat := Ok 0.

(** The number of nodes made by VPTree.h:250-260 and 262-296: one for a leaf, one for an
    inner node. *)
Fixpoint vp_nodes {D} (t : vpnode D) : nat :=
  match t with
  | VNull => 0
  | VLeaf _ _ => 1
  | VNode _ _ inside outside => S (vp_nodes inside + vp_nodes outside)
  end.

(** VPTree.h:177-179: [nsize] is sizeof(vpnode), a pointer takes 8 bytes. *)
Definition vp_mem {R D} {DO : DistOps D} {MO : MetricOps R D} (leafsz : nat) (rng : nat -> nat) (nsize : nat)
  (d : list (wrapped R)) : res nat :=
  do t <- vp_build leafsz rng d;
  Ok (vp_nodes (vp_root t) * nsize + length d * 8).
