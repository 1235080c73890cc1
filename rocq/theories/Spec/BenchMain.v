(** What the options of the benchmark mean. *)
From Coq Require Import List NArith ZArith Bool Ascii String.
From Verif.Model Require Import Common Cached DriverMain Bench BenchMain.
Import ListNotations.
Open Scope N_scope.

(** The names of the codes and of the scenarios. *)
Definition bench_codes : list (string * ec_type) :=
  [("all", TAll); ("rs-fnt", TRsFnt); ("rs-fnt-sys", TRsFntSys); ("rs-nf4", TRsNf4); ("rs-gfp-fft", TRsGfpFft);
   ("rs-gf2n-fft-add", TRsGf2nFftAdd); ("rs-gf2n-v", TRsGf2nV); ("rs-gf2n-c", TRsGf2nC); ("rs-gf2n-fft", TRsGf2nFft)]%string.
Definition bench_scenarios : list (string * scenario) := [("enc_only", EncOnly); ("dec_only", DecOnly); ("enc_dec", EncDec)]%string.

(** The value of the last option that gives one, the default without any. *)
Definition chosen {A} (gives : bopt -> A -> Prop) (l : list bopt) (default a : A) : Prop :=
  (exists l1 o l2, l = l1 ++ o :: l2 /\ gives o a /\ forall o' b, In o' l2 -> ~ gives o' b) \/
  ((forall o b, In o l -> ~ gives o b) /\ a = default).
Definition gives_type (o : bopt) (t : ec_type) : Prop := exists s, In (s, t) bench_codes /\ o = BE (txt s).
Definition gives_sce (o : bopt) (t : scenario) : Prop := exists s, In (s, t) bench_scenarios /\ o = BS (txt s).
Definition gives_num (f : nfield) (o : bopt) (z : Z) : Prop := exists a, o = BNum f a /\ stoi a = Some z.

(** Known options, names and numbers. *)
Definition bench_good (o : bopt) : Prop :=
  (exists t, gives_type o t) \/ (exists s, gives_sce o s) \/ exists f z, gives_num f o z.
(** The options on which the program ends with an exception. *)
Definition bench_throws (o : bopt) : Prop := exists f a, o = BNum f a /\ stoi a = None.

(** [d] in the place of a number that the option gives, reduced modulo [2 ^ w]. *)
Definition unsigned (w : N) (f : nfield) (l : list bopt) (default : Z) (x : N) : Prop :=
  exists z, chosen (gives_num f) l default z /\ Z.of_N x = (z mod 2 ^ Z.of_N w)%Z.
