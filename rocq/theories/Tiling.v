(** Model of loops over the tiles of an array of any rank, as README.md:225-248 describes
    them and as matrix.cpp:171-174, 230-233 and resample.h:199-222 use them.  Definitions only. *)
From Coq Require Import ZArith List Bool.
From Verif Require Import Base Interval Shape Traverse Memory Ref Matrix.
Import ListNotations.
Open Scope Z_scope.

(** How one dimension is traversed: [split<N>(d)] (array.h:601-617), [split(d, n)]
    (array.h:637-647), or not split but passed as [_] to [operator()] (array.h:2123-2134) *)
Inductive splitter := SStatic (N : Z) | SDynamic (n : Z) | SAll.
(** The loop over one dimension, array.h:595-617, 637-647: the arguments it gives to [operator()] *)
Definition split_along (nd : bool) (sp : splitter) (d : dim) : outcome (list sarg) :=
  match sp with
  | SStatic N => r <- split_static nd N (d_interval d) ;; l <- for_split (Some N) r ;; Ok (map AInt l)
  | SDynamic n => l <- for_split None (split_dynamic (d_interval d) n) ;; Ok (map AInt l)
  | SAll => Ok [AAll]
  end.
(** The nest of loops; the first dimension is the innermost one, README.md:232-240 *)
Fixpoint for_tiles_nd {S : Type} (nd : bool) (sps : list splitter) (ds : shape)
  (body : list sarg -> S -> outcome S) (s : S) : outcome S :=
  match sps, ds with
  | sp :: sps', d :: ds' =>
      for_tiles_nd nd sps' ds' (fun rest s => for_in (split_along nd sp d) (fun s a => body (a :: rest) s) s) s
  | _, _ => body [] s
  end.

Section Tiling.
Context {V : Type}.
(** r(i) = u(i, r(i)) for all indices of a view (array.h:1943-1948) *)
Definition update_view (u : list Z -> V -> V) (r : aref) (h : heap V) : outcome (heap V) :=
  for_in (for_each_index (r_shape r)) (fun h i => old <- ref_at h r i ;; store h (ref_ptr r i) (u i old)) h.
(** The same tile by tile, README.md:232-240 *)
Definition update_tiled (nd : bool) (sps : list splitter) (u : list Z -> V -> V) (r : aref) (h : heap V) : outcome (heap V) :=
  for_tiles_nd nd sps (r_shape r) (fun args h => update_view u (ref_slice r args) h) h.
End Tiling.
