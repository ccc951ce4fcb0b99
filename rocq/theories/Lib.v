(** * Lib: model of the public functions of lib.rs *)
From Verif Require Export Base Heap InputGraph Builder PathCalc FastGraph32.

(** lib.rs:54-56, prepare *)
Definition prepare := build.
(** lib.rs:59-61, prepare_with_params *)
Definition prepare_with_params := build_with_params.
(** lib.rs:67-69, prepare_with_order *)
Definition prepare_with_order := build_with_order.
(** lib.rs:72-78, prepare_with_order_with_params *)
Definition prepare_with_order_with_params := build_with_order_with_params.

(** lib.rs:104-106, create_calculator *)
Definition create_calculator (c : cfg) (fg : FastGraph) : PathCalculator :=
  pc_new c (fg_get_num_nodes fg).

(** lib.rs:81-84, calc_path *)
Definition calc_path (c : cfg) (H : heap_ops) (fg : FastGraph) (source target : N)
  : res (option ShortestPath) :=
  '(_, r) <- pc_calc_path c H (create_calculator c fg) fg source target ;; Ok r.

(** lib.rs:92-99, calc_path_multiple_sources_and_targets *)
Definition calc_path_multiple (c : cfg) (H : heap_ops) (fg : FastGraph)
  (sources targets : list (N * N)) : res (option ShortestPath) :=
  '(_, r) <- pc_calc_path_multiple c H (create_calculator c fg) fg sources targets ;; Ok r.

(** lib.rs:110-112, get_node_ordering *)
Definition get_node_ordering := fg_get_node_ordering.

(** Recursion depth of usize_to_u32 that is enough on every platform with usize::MAX > u32::MAX:
    one nested call. *)
Definition u32_depth : nat := 2.

(** lib.rs:118-120, serialize_32, up to (excluding) the call of the derived
    Serialize implementation *)
Definition to_fast_graph32 (c : cfg) (fg : FastGraph) : res FastGraph32 :=
  fg32_new u32_depth c fg.

(** lib.rs:126-129, deserialize_32, after the derived Deserialize *)
Definition from_fast_graph32 := fg32_convert_to_usize.
