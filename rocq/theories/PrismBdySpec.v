(** Specification vocabulary for the faces of prisms as elements of their own. *)
From Verif Require Import Prelude GeoSpec SimplexModel LineModel HyperModel CubeModel.

(** The face rf of the root prism as the image of the root quadrilateral (rf = 0, 1, 2), whose coordinates are 0 to 2^30, and of the root
    triangle (rf = 3, 4), whose coordinates are 0 to 2^29.  A prism has coordinates 0 to 2^21. *)
Definition emb_prism_quad (rf : Z) (w : ipt) : ipt := if rf =? 0 then (2 ^ 30, ix w, iy w) else if rf =? 1 then (ix w, ix w, iy w) else (ix w, 0, iy w).
Definition emb_prism_tri (rf : Z) (w : ipt) : ipt := (ix w, iy w, if rf =? 3 then 0 else 2 ^ 29).
