(** Model of DisplayHistogram, src/tool/ui/tool_ui.h:26-54, for vectors of uint32_t (the type
    Histogram and ProjectionProfile return).  Definitions only. *)
From Coq Require Import ZArith List Bool.
From Verif Require Import Base Image Edge.
Import ListNotations.
Open Scope Z_scope.

(** tool_ui.h:46: uint32_t arithmetic *)
Definition column_limit (mn range v : Z) : Z := u32 (u32 (v - mn) * 100) / range.

(** tool_ui.h:47-49: [n] pixels upwards from [dataX] *)
Definition draw_column (rs n : Z) (dataX : ptr) (m : mem) : res mem mem :=
  iterM (Z.to_nat n) 0 (fun y m => store m (padd dataX (- (y * rs))) 255) m.

(** tool_ui.h:26-54.  The image is made in the block [ib] and filled with 0
    (image_buffer.h:83-99, 190-197, alignment 1).  The second result is the image given to the
    window (ui.cpp:37-41), [None] if the window is left alone. *)
Definition DisplayHistogram (hist : list Z) (m : mem) (ib : Z) : res mem (mem * option image) :=
  match hist with
  | [] => Ok (m, None)
  | _ =>
      do mn <- min_element hist;
      do mx <- max_element hist;
      if mx <=? mn then Ok (m, None)
      else
        let range := u32 (mx - mn) in
        let w := u32 (Z.of_nat (length hist)) in
        let m := fun b => if b =? ib then mkBlock (100 * w) (fun _ => 0) else m b in
        let dataX := (ib, u32 ((100 - 1) * w)) in
        do m <- iterM (length hist) 0
                  (fun i m =>
                     do v <- vnth hist i;
                     draw_column w (column_limit mn range v) (padd dataX i) m) m;
        Ok (m, Some (mkImage w 100 1 1 w (Some (ib, 0)) 0))
  end.
