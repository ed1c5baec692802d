(** Specification vocabulary for the faces of pyramids as elements of their own. *)
From Verif Require Import Prelude GeoSpec.

(** The face rf of the root pyramid as the image of the root triangle (rf = 0 to 3), whose coordinates are 0 to 2^29, and of the root
    quadrilateral (rf = 4), whose coordinates are 0 to 2^30.  A pyramid has coordinates 0 to 2^21. *)
Definition emb_pyramid_tri (rf : Z) (w : ipt) : ipt :=
  if rf =? 0 then (iy w, ix w, iy w) else if rf =? 1 then (2 ^ 29, ix w, iy w) else if rf =? 2 then (ix w, iy w, iy w) else (ix w, 2 ^ 29, iy w).
Definition emb_pyramid_quad (w : ipt) : ipt := (ix w, iy w, 0).
