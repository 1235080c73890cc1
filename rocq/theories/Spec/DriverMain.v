(** What the options of the driver mean. *)
From Coq Require Import List NArith ZArith Bool Ascii String.
From Verif.Model Require Import Common Cached DriverMain.
Import ListNotations.

(** The codes and their names, and the matrix of rs-gf2n. *)
Definition driver_codes : list (string * (ecode * option bool)) :=
  [("rs-gf2n-v", (DGf2n, Some true)); ("rs-gf2n-c", (DGf2n, Some false)); ("rs-gf2n-fft", (DGf2nFft, None));
   ("rs-gf2n-fft-add", (DGf2nFftAdd, None)); ("rs-gfp-fft", (DGfpFft, None)); ("rs-nf4", (DNf4, None)); ("rs-fnt", (DFnt, None));
   ("rs-fnt-sys", (DFntSys, None))]%string.
Definition known (a : text) : Prop := exists s c, In (s, c) driver_codes /\ a = txt s.

(** The arguments of the options. *)
Definition arg_e (o : opt) : option text := match o with OE a => Some a | _ => None end.
Definition arg_w (o : opt) : option text := match o with OW a => Some a | _ => None end.
Definition arg_n (o : opt) : option text := match o with ON a => Some a | _ => None end.
Definition arg_m (o : opt) : option text := match o with OM a => Some a | _ => None end.
Definition arg_p (o : opt) : option text := match o with OP a => Some a | _ => None end.

(** Of an option that is given more than once, the last one counts. *)
Definition last_is (f : opt -> option text) (l : list opt) (a : text) : Prop :=
  exists l1 o l2, l = l1 ++ o :: l2 /\ f o = Some a /\ forall o', In o' l2 -> f o' = None.

(** Known options, names and numbers. *)
Definition good_opt (o : opt) : Prop :=
  match o with
  | OE a => known a
  | OW a | ON a | OM a => exists z, stoi a = Some z
  | OBad => False
  | _ => True
  end.

(** The sizes of words that a code has. *)
Definition code_words (e : ecode) : list nat :=
  (match e with DUndef => [] | DFnt | DFntSys => [1; 2] | DNf4 => [2; 4; 8] | DGfpFft => [1; 2; 4] | _ => [1; 2; 4; 8; 16] end)%nat.
