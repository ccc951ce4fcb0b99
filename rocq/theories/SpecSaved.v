(** * SpecSaved: the program of the README, with the prepared graph saved and loaded in between *)
From Verif Require Export SpecProgram SpecSerial Spec32.

(** Build, prepare, save, load and query on one platform (README.md:80-82).  An error of loading is returned. *)
Definition readme_saved (c : cfg) (edges : list (N * N * N)) (source target : N)
  : res (load_error + option ShortestPath) :=
  ig <- ig_run c ig_new (map (fun '(u, v, w) => OpAddEdge u v w) edges ++ [OpFreeze]) ;;
  fg <- prepare c bin_heap bin_pq ig ;;
  match load_from_disk c (save_to_disk fg) with
  | inl e => Ok (inl e)
  | inr fg' => r <- calc_path c bin_heap fg' source target ;; Ok (inr r)
  end.

(** README.md:84-95: build, prepare and save in the 32-bit form on platform [c]; load and query on platform [c']. *)
Definition readme_wasm (c c' : cfg) (edges : list (N * N * N)) (source target : N)
  : res (load_error + option ShortestPath) :=
  ig <- ig_run c ig_new (map (fun '(u, v, w) => OpAddEdge u v w) edges ++ [OpFreeze]) ;;
  fg <- prepare c bin_heap bin_pq ig ;;
  bytes <- save_to_disk32 c fg ;;
  loaded <- load_from_disk32 c' bytes ;;
  match loaded with
  | inl e => Ok (inl e)
  | inr fg' => r <- calc_path c' bin_heap fg' source target ;; Ok (inr r)
  end.
