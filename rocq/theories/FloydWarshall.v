(** * FloydWarshall: model of floyd_warshall.rs, the second reference implementation of the tests *)
From Verif Require Export Base InputGraph.

(** [a * b] on [usize] *)
Definition umul (c : cfg) (a b : N) : res N :=
  if a * b <=? umax c then Ok (a * b)
  else if debug_build c then Panic POverflow
  else Ok ((a * b) mod (umax c + 1)).

(** floyd_warshall.rs:25-28, struct FloydWarshall *)
Record FloydWarshall := mkFW { fw_num_nodes : N; fw_matrix : list N }.

(** floyd_warshall.rs:31-38, FloydWarshall::new.  Running out of memory is not modelled. *)
Definition fw_new (c : cfg) (num_nodes : N) : res FloydWarshall :=
  m <- umul c num_nodes num_nodes ;;
  if m <=? umax c / 2 then Ok (mkFW num_nodes (vec_repeat (WEIGHT_MAX c) m))
  else Panic PCapacity.

(** row * n + column *)
Definition fw_index (c : cfg) (n row col : N) : res N :=
  x <- umul c row n ;; uadd c x col.

(** floyd_warshall.rs:50-63, the body of the three loops *)
Definition fw_step (c : cfg) (n k i : N) (m : list N) (j : N) : res (list N) :=
  m1 <- (if i =? j then p <- fw_index c n i j ;; upd m p 0 else Ok m) ;;
  p_ik <- fw_index c n i k ;;
  weight_ik <- idx m1 p_ik ;;
  p_kj <- fw_index c n k j ;;
  weight_kj <- idx m1 p_kj ;;
  if (weight_ik =? WEIGHT_MAX c) || (weight_kj =? WEIGHT_MAX c) then Ok m1
  else
    p <- fw_index c n i j ;;
    x <- idx m1 p ;;
    w <- uadd c weight_ik weight_kj ;;
    upd m1 p (N.min x w).

(** floyd_warshall.rs:40-66, prepare *)
Definition fw_prepare (c : cfg) (fw : FloydWarshall) (ig : InputGraph) : res FloydWarshall :=
  num <- ig_get_num_nodes ig ;;
  _ <- assert (num =? fw_num_nodes fw) "input graph has invalid number of nodes" ;;
  let n := fw_num_nodes fw in
  es <- ig_get_edges ig ;;
  m0 <- foldM (fun m e => p <- fw_index c n (e_from e) (e_to e) ;; upd m p (e_weight e))
          es (fw_matrix fw) ;;
  m <- foldM (fun m k => foldM (fun m i => foldM (fw_step c n k i) (rangeN 0 n) m) (rangeN 0 n) m)
         (rangeN 0 n) m0 ;;
  Ok (mkFW n m).

(** floyd_warshall.rs:68-70, calc_weight *)
Definition fw_calc_weight (c : cfg) (fw : FloydWarshall) (source target : N) : res N :=
  p <- fw_index c (fw_num_nodes fw) source target ;;
  idx (fw_matrix fw) p.
