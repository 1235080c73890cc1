(** Programs that use Vector and Buffers: what they may do, and the blocks that they own themselves. *)
From Coq Require Import List Arith Bool.
From Verif.Model Require Import Owner.
Import ListNotations.

(** The blocks of the program after an event. *)
Definition own_after (w : world) (mine : list nat) (e : event) : list nat :=
  match e with
  | Own => b_next (w_blocks w) :: mine
  | Release b => remove Nat.eq_dec b mine
  | _ => mine
  end.

(** A vector that was not moved from. *)
Definition whole (v : vector) : Prop := v_new_mem v = true -> v_mem v <> None.

(** Vectors may do everything, but not be copied once they were moved from.  [Buffers]: clones of buffers that are still there;
    slices that begin in the buffers; shuffles to more buffers; [set] on buffers that are not fully allocated, and only in the
    place of a null pointer for those made from a vector of pointers; an even number of buffers to separate; no assignment. *)
Inductive allowed (w : world) (mine : list nat) : event -> Prop :=
| AOwn : allowed w mine Own
| ARelease b : In b mine -> allowed w mine (Release b)
| ANewVector n mem len : allowed w mine (NewVector n mem len)
| ACopyVector i v : get_vector w i = Some v -> whole v -> allowed w mine (CopyVector i)
| AMoveVector i v : get_vector w i = Some v -> allowed w mine (MoveVector i)
| AAssignVector i j v v' : get_vector w i = Some v -> get_vector w j = Some v' -> whole v' -> allowed w mine (AssignVector i j)
| ASwapVectors i j v v' : get_vector w i = Some v -> get_vector w j = Some v' -> allowed w mine (SwapVectors i j)
| ASetMem i v mem len : get_vector w i = Some v -> allowed w mine (SetMem i mem len)
| ANewBufs n : allowed w mine (NewBufs n)
| AWrapBufs n mem : length mem = n -> allowed w mine (WrapBufs n mem)
| ACloneBufs i v n : get_bufs w i = Some v ->
    (forall p, In p (f_mem v) -> exists b, p = Some b /\ In b (b_live (w_blocks w))) -> allowed w mine (CloneBufs i n)
| ARangeBufs i v b e : get_bufs w i = Some v -> b < e -> b <= f_n v -> allowed w mine (RangeBufs i b e)
| AConcatBufs i j v v' : get_bufs w i = Some v -> get_bufs w j = Some v' -> allowed w mine (ConcatBufs i j)
| AShuffleBufs i v map n : get_bufs w i = Some v -> f_n v < n -> length map <= f_n v -> (forall j, In j map -> j < n) ->
    allowed w mine (ShuffleBufs i map n)
| ASetBuf i v k buf : get_bufs w i = Some v -> k < f_n v -> f_case v <> AFull ->
    (f_case v = ANone -> nth k (f_mem v) None = None) -> allowed w mine (SetBuf i k buf)
| ASeparateBufs i v : get_bufs w i = Some v -> Nat.even (f_n v) = true -> allowed w mine (SeparateBufs i)
| ASwapBufs i v k l : get_bufs w i = Some v -> k < f_n v -> l < f_n v -> allowed w mine (SwapBufs i k l)
| ADestroy i o : obj w i = Some o -> allowed w mine (Destroy i).

(** The states of such programs, from any blocks of their own. *)
Inductive program : world -> list nat -> Prop :=
| PStart : program (mkWorld (mkBlocks [] 0) []) []
| PEvent w mine e w' : program w mine -> allowed w mine e -> run_event w e = Some w' -> program w' (own_after w mine e).
