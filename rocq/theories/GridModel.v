(** Model of the discrete part of jrystal/_src/grid.py and of utils.fft_factor. *)
From Coq Require Import List ZArith Bool.
From Verif Require Import Base.
Import ListNotations.
Local Open Scope Z_scope.

(** jrystal/_src/const.py, CUFFT_FACTORS (literal copy of the list). *)
Definition CUFFT_FACTORS : list Z := [
  1; 2; 3; 4; 5; 6; 7; 8; 9; 10; 12; 14; 15; 16; 18; 20;
  21; 24; 25; 27; 28; 30; 32; 35; 36; 40; 42; 45; 48; 49; 50; 54;
  56; 60; 63; 64; 70; 72; 75; 80; 81; 84; 90; 96; 98; 100; 105; 108;
  112; 120; 125; 126; 128; 135; 140; 144; 147; 150; 160; 162; 168; 175; 180; 189;
  192; 196; 200; 210; 216; 224; 225; 240; 243; 245; 250; 252; 256; 270; 280; 288;
  294; 300; 315; 320; 324; 336; 343; 350; 360; 375; 378; 384; 392; 400; 405; 420;
  432; 441; 448; 450; 480; 486; 490; 500; 504; 512; 525; 540; 560; 567; 576; 588;
  600; 625; 630; 640; 648; 672; 675; 686; 700; 720; 729; 735; 750; 756; 768; 784;
  800; 810; 840; 864; 875; 882; 896; 900; 945; 960; 972; 980; 1000; 1008; 1024; 1029;
  1050; 1080; 1120; 1125; 1134; 1152; 1176; 1200; 1215; 1225; 1250; 1260; 1280; 1296; 1323; 1344;
  1350; 1372; 1400; 1440; 1458; 1470; 1500; 1512; 1536; 1568; 1575; 1600; 1620; 1680; 1701; 1715;
  1728; 1750; 1764; 1792; 1800; 1875; 1890; 1920; 1944; 1960; 2000; 2016; 2025; 2048].

(** jrystal/_src/utils.py 227-254, [fft_factor].  The boolean-mask indexing
    [fftw_factors[delta_n][0]] is "first element of the filtered list". *)
Definition fft_factor (n : Z) : res Z :=
  if n >? 2048 then Err ValueErr
  else match filter (fun f => f - n >=? 0) CUFFT_FACTORS with
       | [] => Err IndexErr
       | f :: _ => Ok f
       end.

(** Argument of [proper_grid_size]: something with [__len__], something [int()]
    accepts, or anything else. *)
Inductive grid_arg := GSeq (l : list Z) | GScalar (n : Z) | GOther.

(** jrystal/_src/grid.py 181-210, [proper_grid_size]. *)
Definition proper_grid_size (a : grid_arg) : res (list Z) :=
  match a with
  | GSeq l => mapM fft_factor l
  | GScalar n => mapM fft_factor [n; n; n]
  | GOther => Err TypeErr
  end.

(** numpy.fft.fftfreq(n, 1/n) at position i: the integer frequency (n*fftfreq).
    numpy: results = 0,1,...,(n-1)//2, then -(n//2),...,-1.
    Used by jrystal/_src/grid.py 93-119. *)
Definition fftfreq (n i : Z) : Z :=
  if i <=? (n - 1) / 2 then i else i - n.

(** jrystal/_src/grid.py 37-54, [_half_frequency_ranges], one axis:
    ((pos_start, neg_start), (pos_size, neg_size)).  Python's // on ints is floor. *)
Definition half_range (size : Z) : (Z * Z) * (Z * Z) :=
  let G_max := (size - 1) / 2 in
  let lower := (- G_max) / 2 in
  let upper := G_max / 2 in
  let pos_size := upper + 1 in
  let neg_start := lower + size in
  let neg_size := size - neg_start in
  ((0, neg_start), (pos_size, neg_size)).

(** jrystal/_src/grid.py 57-69, [half_frequency_shape]. *)
Definition half_frequency_shape (sizes : list Z) : list Z :=
  map (fun s => let '(_, (p, q)) := half_range s in p + q) sizes.

(** Python slice bounds: a negative bound counts from the end, then both are clamped. *)
Definition py_bound (n a : Z) : Z :=
  if a <? 0 then Z.max 0 (a + n) else Z.min n a.

(** jrystal/_src/grid.py 315-322, one axis of [cubic_mask]:
    [m = ones(size); m[upper+1:lower] = False], read at position i. *)
Definition cubic_mask_axis (size i : Z) : bool :=
  let G_max := (size - 1) / 2 in
  let lower := (- G_max) / 2 in
  let upper := G_max / 2 in
  negb ((py_bound size (upper + 1) <=? i) && (i <? py_bound size lower)).

(** jrystal/_src/grid.py 296-325, [cubic_mask] at a multi-index.  The einsum
    'i,j,k->ijk' accepts exactly three operands. *)
Definition cubic_mask (sizes : list Z) : res (list Z -> bool) :=
  match sizes with
  | [n1; n2; n3] =>
      Ok (fun i => match i with
                   | [i1; i2; i3] => cubic_mask_axis n1 i1 && cubic_mask_axis n2 i2
                                     && cubic_mask_axis n3 i3
                   | _ => false
                   end)
  | _ => Err ValueErr
  end.
