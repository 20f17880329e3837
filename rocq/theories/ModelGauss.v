(** Model of math/csprng/gaussian_sampler.go: the ziggurat sampler on binary64 (SpecFloat, round to nearest even), one
    rounding per operation (no fused multiply-add, as on amd64).  The words of the base sampler are a stream s : nat -> Z of
    uint32 values (UniformSampler, ModelSampler.v); pos counts the words taken.  math.Log and math.Exp are the parameters lg
    and ex.  The unbounded loops carry fuel: None is "not finished".  No proofs in this file. *)
From Coq Require Import Floats.SpecFloat.
From Verif Require Import Base ModelNum ModelAsm ModelF64 ModelF64Arith.
Import ListNotations.
Open Scope Z_scope.

(** gaussian_sampler.go:180-186 constants: rn and 1/rn as binary64, scaleInv as binary32. *)
Definition rnC : f64 := S754_finite false 7752090750102504 (-51).
Definition nrnInvC : f64 := S754_finite true 5232758557008245 (-54).
Definition scaleInv32 : spec_float := S754_finite false 8388608 (-46).
(** gaussian_sampler.go:189-222. *)
Definition knT : list Z :=
  [15555140; 0; 12590646; 14272655; 14988941; 15384586; 15635011; 15807563; 15933579; 16029596; 16105157; 16166149; 16216401; 16258510; 16294297; 16325080; 16351833; 16375293; 16396028; 16414481; 16431004; 16445882; 16459345; 16471580; 16482746; 16492973; 16502371; 16511033; 16519041; 16526461; 16533355; 16539771; 16545757; 16551350; 16556586; 16561495; 16566103; 16570436; 16574514; 16578356; 16581979; 16585400; 16588632; 16591687; 16594578; 16597313; 16599904; 16602357; 16604681; 16606884; 16608971; 16610948; 16612821; 16614596; 16616275; 16617864; 16619366; 16620785; 16622124; 16623386; 16624574; 16625689; 16626734; 16627712; 16628623; 16629469; 16630252; 16630973; 16631633; 16632232; 16632772; 16633253; 16633676; 16634040; 16634345; 16634592; 16634780; 16634909; 16634978; 16634986; 16634933; 16634816; 16634636; 16634389; 16634074; 16633688; 16633230; 16632697; 16632084; 16631389; 16630608; 16629736; 16628767; 16627697; 16626519; 16625225; 16623807; 16622256; 16620562; 16618713; 16616695; 16614493; 16612090; 16609464; 16606592; 16603448; 16599998; 16596205; 16592024; 16587401; 16582272; 16576558; 16570162; 16562964; 16554811; 16545510; 16534808; 16522367; 16507732; 16490264; 16469044; 16442689; 16409025; 16364393; 16302110; 16208407; 16049218; 15707337].
(** gaussian_sampler.go:223-256, 257-290: the binary64 values of the literals, mantissa and exponent. *)
Definition wnT : list (positive * Z) :=
  [(8361126918612132%positive, -75); (4905696581205294%positive, -78); (6536910567487814%positive, -78); (7684005409623564%positive, -78);
   (8600755464567693%positive, -78); (4689652684313987%positive, -77); (5032251772987790%positive, -77); (5340935373517821%positive, -77);
   (5623722292616376%positive, -77); (5886012307847835%positive, -77); (6131632145703263%positive, -77); (6363402628710223%positive, -77);
   (6583469216820315%positive, -77); (6793505878773350%positive, -77); (6994846717009446%positive, -77); (7188574213847830%positive, -77);
   (7375580298173186%positive, -77); (7556609759384423%positive, -77); (7732291838242598%positive, -77); (7903163685595209%positive, -77);
   (8069688096078013%positive, -77); (8232267127873797%positive, -77); (8391252711856601%positive, -77); (8546955021327186%positive, -77);
   (8699649151369816%positive, -77); (8849580505206577%positive, -77); (8996969179505412%positive, -77); (4571006783047085%positive, -76);
   (4642446667038957%positive, -76); (4712885958735013%positive, -76); (4782399302398510%positive, -76); (4851055152889535%positive, -76);
   (4918916527046630%positive, -76); (4986041646487343%positive, -76); (5052484490498290%positive, -76); (5118295274036815%positive, -76);
   (5183520863015194%positive, -76); (5248205136793134%positive, -76); (5312389306023670%positive, -76); (5376112192575756%positive, -76);
   (5439410477114425%positive, -76); (5502318918996015%positive, -76); (5564870552385422%positive, -76); (5627096861889185%positive, -76);
   (5689027940494745%positive, -76); (5750692632191071%positive, -76); (5812118661301961%positive, -76); (5873332750277505%positive, -76);
   (5934360727450706%positive, -76); (5995227626066758%positive, -76); (6055957775725078%positive, -76); (6116574887233556%positive, -76);
   (6177102131756056%positive, -76); (6237562215034557%positive, -76); (6297977447383403%positive, -76); (6358369810082690%positive, -76);
   (6418761018738851%positive, -76); (6479172584131455%positive, -76); (6539625871024839%positive, -76); (6600142155390421%positive, -76);
   (6660742680459502%positive, -76); (6721448712006546%positive, -76); (6782281593248627%positive, -76); (6843262799737784%positive, -76);
   (6904413994619046%positive, -76); (6965757084627767%positive, -76); (7027314277205688%positive, -76); (7089108139125749%positive, -76);
   (7151161657031430%positive, -76); (7213498300317473%positive, -76); (7276142086805684%positive, -76); (7339117651702633%positive, -76);
   (7402450320366129%positive, -76); (7466166185455183%positive, -76); (7530292189094786%positive, -76); (7594856210753441%positive, -76);
   (7659887161609572%positive, -76); (7725415086274363%positive, -76); (7791471272845593%positive, -76); (7858088372392164%positive, -76);
   (7925300529115503%positive, -76); (7993143522605761%positive, -76); (8061654923812403%positive, -76); (8130874266586163%positive, -76);
   (8200843236929498%positive, -76); (8271605882424197%positive, -76); (8343208844698435%positive, -76); (8415701618264504%positive, -76);
   (8489136839619132%positive, -76); (8563570611171349%positive, -76); (8639062865374140%positive, -76); (8715677775418258%positive, -76);
   (8793484220041251%positive, -76); (8872556311464944%positive, -76); (8952973997268759%positive, -76); (4517411874611412%positive, -75);
   (4559099677429598%positive, -75); (4601601415501673%positive, -75); (4644972741411041%positive, -75); (4689274568718106%positive, -75);
   (4734573794078735%positive, -75); (4780944147214968%positive, -75); (4828467197129971%positive, -75); (4877233550619709%positive, -75);
   (4927344289258553%positive, -75); (4978912704555980%positive, -75); (5032066409236726%positive, -75); (5086949927542537%positive, -75);
   (5143727901987776%positive, -75); (5202589102488722%positive, -75); (5263751492922942%positive, -75); (5327468710434161%positive, -75);
   (5394038460920567%positive, -75); (5463813557534937%positive, -75); (5537216673744598%positive, -75); (5614760428286998%positive, -75);
   (5697075308907037%positive, -75); (5784949440208912%positive, -75); (5879386822556187%positive, -75); (5981695461950628%positive, -75);
   (6093626039766834%positive, -75); (6217600678294858%positive, -75); (6357113138376137%positive, -75); (6517483295752093%positive, -75);
   (6707427666737218%positive, -75); (6942814168481724%positive, -75); (7257742167771535%positive, -75); (7752090750102504%positive, -75)].
Definition fnT : list (positive * Z) :=
  [(4503599627370496%positive, -52); (8679334437802970%positive, -53); (8433284672700592%positive, -53); (8223966065557078%positive, -53);
   (8036958619960963%positive, -53); (7865474139350549%positive, -53); (7705664437632199%positive, -53); (7555091064511017%positive, -53);
   (7412089221075631%positive, -53); (7275459765894137%positive, -53); (7144303389304201%positive, -53); (7017924044520258%positive, -53);
   (6895769200572916%positive, -53); (6777391051033723%positive, -53); (6662420317957153%positive, -53); (6550547972914985%positive, -53);
   (6441512124574753%positive, -53); (6335088386890788%positive, -53); (6231082657200741%positive, -53); (6129325603088525%positive, -53);
   (6029668386447938%positive, -53); (5931979300036998%positive, -53); (5836141088219531%positive, -53); (5742048788352960%positive, -53);
   (5649607973692499%positive, -53); (5558733309708181%positive, -53); (5469347357753967%positive, -53); (5381379575930121%positive, -53);
   (5294765478613440%positive, -53); (5209445924750453%positive, -53); (5125366511472531%positive, -53); (5042477054491838%positive, -53);
   (4960731140489139%positive, -53); (4880085739604915%positive, -53); (4800500868406873%positive, -53); (4721939295485100%positive, -53);
   (4644366283234791%positive, -53); (4567749360510594%positive, -53); (8984116243479314%positive, -54); (8834528097621161%positive, -54);
   (8686680705298705%positive, -54); (8540523663758197%positive, -54); (8396009492720007%positive, -54); (8253093407471952%positive, -54);
   (8111733114777929%positive, -54); (7971888628861385%positive, -54); (7833522105106918%positive, -54); (7696597689446180%positive, -54);
   (7561081381667181%positive, -54); (7426940911117537%positive, -54); (7294145623469329%positive, -54); (7162666377381564%positive, -54);
   (7032475450040657%positive, -54); (6903546450683435%positive, -54); (6775854241314389%positive, -54); (6649374863921529%positive, -54);
   (6524085473575786%positive, -54); (6399964276868904%positive, -54); (6276990475206029%positive, -54); (6155144212522729%positive, -54);
   (6034406527043287%positive, -54); (5914759306738495%positive, -54); (5796185248177825%positive, -54); (5678667818503251%positive, -54);
   (5562191220280785%positive, -54); (5446740359011511%positive, -54); (5332300813106842%positive, -54); (5218858806153342%positive, -54);
   (5106401181311080%positive, -54); (4994915377706271%positive, -54); (4884389408694324%positive, -54); (4774811841883383%positive, -54);
   (4666171780821408%positive, -54); (4558458848261793%positive, -54); (8903326341867401%positive, -55); (8691550731507810%positive, -55);
   (8481573054853934%positive, -55); (8273376434780630%positive, -55); (8066944908140577%positive, -55); (7862263408849168%positive, -55);
   (7659317753511963%positive, -55); (7458094629583711%positive, -55); (7258581586067701%positive, -55); (7060767026785266%positive, -55);
   (6864640206267254%positive, -55); (6670191228343484%positive, -55); (6477411047532397%positive, -55); (6286291473362263%positive, -55);
   (6096825177787999%positive, -55); (5909005705904692%positive, -55); (5722827490201202%positive, -55); (5538285868646308%positive, -55);
   (5355377106956612%positive, -55); (5174098425462386%positive, -55); (4994448031066479%positive, -55); (4816425154885416%positive, -55);
   (4640030096274587%positive, -55); (8930528548150923%positive, -56); (8584260572176316%positive, -56); (8241263955950170%positive, -56);
   (7901549046101855%positive, -56); (7565129029448335%positive, -56); (7232020147486443%positive, -56); (6902241945780016%positive, -56);
   (6575817564773819%positive, -56); (6252774080168466%positive, -56); (5933142903069276%positive, -56); (5616960252849514%positive, -56);
   (5304267719287611%positive, -56); (4995112935401982%positive, -56); (4689550389034035%positive, -56); (8775284820791591%positive, -57);
   (8178920771377256%positive, -57); (7590172530724885%positive, -57); (7009228925157819%positive, -57); (6436308555653704%positive, -57);
   (5871666095298306%positive, -57); (5315600627051948%positive, -57); (4768466934995830%positive, -57); (8461382418162230%positive, -58);
   (7405587199270077%positive, -58); (6370843803644534%positive, -58); (5358808765340033%positive, -58); (8743352021569893%positive, -59);
   (6824994774004634%positive, -59); (4971676772866359%positive, -59); (6397555918987902%positive, -60); (6155745560260384%positive, -61)].
Definition f64Of (c : positive * Z) : f64 := S754_finite false (fst c) (snd c).
Definition kn (i : Z) : Z := nth (Z.to_nat i) knT 0.
Definition wn (i : Z) : f64 := f64Of (nth (Z.to_nat i) wnT (1%positive, 0)).
Definition fn (i : Z) : f64 := f64Of (nth (Z.to_nat i) fnT (1%positive, 0)).

(** Conversions: float32(u), float64 of a float32, and int64 of a float (amd64: out of range gives the smallest integer). *)
Definition f32OfZ (u : Z) : spec_float := binary_normalize 24 128 u 0 false.
Definition f64Of32 (x : spec_float) : f64 := match x with S754_finite s m e => BN (cond_Zopp s (Zpos m)) e s | _ => x end.
Definition int64Of (x : f64) : Z :=
  match x with
  | S754_infinity _ | S754_nan => - 2 ^ 63
  | _ => let n := roundGo x in if (- 2 ^ 63 <=? n) && (n <? 2 ^ 63) then n else - 2 ^ 63
  end.

(** gaussian_sampler.go:33-39 uniformFloat on the word h. *)
Definition uniformFloat (h : Z) : f64 :=
  let u := Z.shiftr h (32 - 23) in
  let u := wrap 32 (u + 2 ^ 23) in
  let uf := SFmul 24 128 (f32OfZ u) scaleInv32 in
  f64Of32 (SFsub 24 128 uf (f32OfZ 1)).

Section Gauss.
Variables lg ex : f64 -> f64.
Variable s : nat -> Z.
Notation mul := (SFmul 53 1024).
Notation add := (SFadd 53 1024).
Notation sub := (SFsub 53 1024).
(** gaussian_sampler.go:62-68. *)
Fixpoint tailLoop (fuel pos : nat) : option (f64 * nat) :=
  match fuel with
  | O => None
  | S fuel =>
    let x := mul nrnInvC (lg (uniformFloat (s pos))) in
    let y := SFopp (lg (uniformFloat (s (S pos)))) in
    if SFleb (mul x x) (add y y) then Some (x, S (S pos)) else tailLoop fuel (S (S pos))
  end.
(** gaussian_sampler.go:42-81. *)
Fixpoint normFloat (fuel pos : nat) : option (f64 * nat) :=
  match fuel with
  | O => None
  | S fuel =>
    let h := s pos in
    let t := Z.land h 1 in
    let i := Z.land (Z.shiftr h 1) 127 in
    let u := Z.shiftr h 8 in
    let x := mul (BN u 0 false) (wn i) in
    let x := if 0 <? t then SFopp x else x in
    if u <? kn i then Some (x, S pos)
    else if i =? 0 then
      match tailLoop fuel (S pos) with
      | None => None
      | Some (x, pos) => let x := add x rnC in Some (if 0 <? t then SFopp x else x, pos)
      end
    else if SFltb (add (fn i) (mul (uniformFloat (s (S pos))) (sub (fn (i - 1)) (fn i)))) (ex (mul (mul (S754_finite true 4503599627370496 (-53)) x) x)) then Some (x, S (S pos))
    else normFloat fuel (S (S pos))
  end.
(** One rounded sample as a T: gaussian_sampler.go:92. *)
Definition sample1 (sg : bool) (w : Z) (sd : f64) (fuel pos : nat) : option (Z * nat) :=
  match normFloat fuel pos with None => None | Some (x, pos) => Some (twrap sg w (int64Of (mul x sd)), pos) end.
(** gaussian_sampler.go:87-93 Sample.  The outer None is the panic. *)
Definition Sample (sg : bool) (w : Z) (sd : f64) (fuel pos : nat) : option (option (Z * nat)) :=
  if SFltb sd (S754_zero false) then None else Some (sample1 sg w sd fuel pos).
(** gaussian_sampler.go:99-142 SampleVecTo, SamplePolyTo, SamplePolyAddTo, SamplePolySubTo: acc x e is e, x + e or x - e in T. *)
Fixpoint sampleLoop (acc : Z -> Z -> Z) (sg : bool) (w : Z) (sd : f64) (fuel : nat) (v : list Z) (pos : nat) : option (list Z * nat) :=
  match v with
  | [] => Some ([], pos)
  | x :: v => match sample1 sg w sd fuel pos with
              | None => None
              | Some (e, pos) => match sampleLoop acc sg w sd fuel v pos with None => None | Some (v, pos) => Some (twrap sg w (acc x e) :: v, pos) end
              end
  end.
Definition sampleVec (acc : Z -> Z -> Z) (sg : bool) (w : Z) (sd : f64) (fuel : nat) (v : list Z) (pos : nat) : option (option (list Z * nat)) :=
  if SFltb sd (S754_zero false) then None else Some (sampleLoop acc sg w sd fuel v pos).
Definition SampleVecTo := sampleVec (fun _ e => e).
Definition SamplePolyAddTo := sampleVec Z.add.
Definition SamplePolySubTo := sampleVec Z.sub.
End Gauss.
