(** The tables of sfepy/discrete/quadratures.py, generated from the source: decimal literals
    are taken as the exact rationals (the doubles nearest to them are not modelled), sqrt is exact. *)
From Coq Require Import Reals QArith Qreals.
From Verif Require Import Base.
Set Implicit Arguments.
Open Scope nat_scope.

Definition rat (l : list (list Q)) : list (list R) := map (map Q2R) l.
(** the arguments of QuadraturePoints *)
Record rule := mkRule { ru_data : list (list R); ru_bounds : option (R * R); ru_tp_fix : R; ru_weight_fix : R; ru_symmetric : bool }.

(** l.242-242: '0_1', 1 *)
Definition q0_1_1 : list (list Q) := [
  [0; 1]]%Q.
(** l.246-247: '1_2', 1 *)
Definition q1_2_1 : list (list Q) := [
  [0; 2]]%Q.
(** l.249-250: '1_2', 3 *)
Definition q1_2_3 : list (list Q) := [
  [0.577350269189626; 1]]%Q.
(** l.252-254: '1_2', 5 *)
Definition q1_2_5 : list (list Q) := [
  [0; 0.888888888888889];
  [0.774596669241483; 0.555555555555556]]%Q.
(** l.256-258: '1_2', 7 *)
Definition q1_2_7 : list (list Q) := [
  [0.339981043584856; 0.652145154862546];
  [0.861136311594053; 0.347854845137454]]%Q.
(** l.260-263: '1_2', 9 *)
Definition q1_2_9 : list (list Q) := [
  [0; 0.568888888888889];
  [0.538469310105683; 0.478628670499366];
  [0.906179845938664; 0.236926885056189]]%Q.
(** l.265-268: '1_2', 11 *)
Definition q1_2_11 : list (list Q) := [
  [0.238619186083197; 0.467913934572691];
  [0.661209386466265; 0.360761573048139];
  [0.932469514203152; 0.171324492379170]]%Q.
(** l.270-274: '1_2', 13 *)
Definition q1_2_13 : list (list Q) := [
  [0; 0.417959183673469];
  [0.405845151377397; 0.381830050505119];
  [0.741531185599394; 0.279705391489277];
  [0.949107912342759; 0.129484966168870]]%Q.
(** l.276-280: '1_2', 15 *)
Definition q1_2_15 : list (list Q) := [
  [0.183434642495650; 0.362683783378362];
  [0.525532409916329; 0.313706645877887];
  [0.796666477413627; 0.222381034453374];
  [0.960289856497536; 0.101228536290376]]%Q.
(** l.282-287: '1_2', 17 *)
Definition q1_2_17 : list (list Q) := [
  [0; 0.330239355001260];
  [0.324253423403809; 0.312347077040003];
  [0.613371432700590; 0.260610696402935];
  [0.836031107326636; 0.180648160694857];
  [0.968160239507626; 0.081274388361574]]%Q.
(** l.289-294: '1_2', 19 *)
Definition q1_2_19 : list (list Q) := [
  [0.148874338981631; 0.295524224714753];
  [0.433395394129247; 0.269266719309996];
  [0.679409568299024; 0.219086362515982];
  [0.865063366688985; 0.149451349150581];
  [0.973906528517172; 0.066671344308688]]%Q.
(** l.296-302: '1_2', 23 *)
Definition q1_2_23 : list (list Q) := [
  [0.125233408511469; 0.249147045813403];
  [0.367831498998180; 0.233492536538355];
  [0.587317954286617; 0.203167426723066];
  [0.769902674194305; 0.160078328543346];
  [0.904117256370475; 0.106939325995318];
  [0.981560634246719; 0.047175336386512]]%Q.
(** l.304-312: '1_2', 31 *)
Definition q1_2_31 : list (list Q) := [
  [0.095012509837637440185; 0.189450610455068496285];
  [0.281603550779258913230; 0.182603415044923588867];
  [0.458016777657227386342; 0.169156519395002538189];
  [0.617876244402643748447; 0.149595988816576732081];
  [0.755404408355003033895; 0.124628971255533872052];
  [0.865631202387831743880; 0.095158511682492784810];
  [0.944575023073232576078; 0.062253523938647892863];
  [0.989400934991649932596; 0.027152459411754094852]]%Q.
(** l.314-324: '1_2', 39 *)
Definition q1_2_39 : list (list Q) := [
  [0.076526521133497333755; 0.152753387130725850698];
  [0.227785851141645078080; 0.149172986472603746788];
  [0.373706088715419560673; 0.142096109318382051329];
  [0.510867001950827098004; 0.131688638449176626898];
  [0.636053680726515025453; 0.118194531961518417312];
  [0.746331906460150792614; 0.101930119817240435037];
  [0.839116971822218823395; 0.083276741576704748725];
  [0.912234428251325905868; 0.062672048334109063570];
  [0.963971927277913791268; 0.040601429800386941331];
  [0.993128599185094924786; 0.017614007139152118312]]%Q.
(** l.326-338: '1_2', 47 *)
Definition q1_2_47 : list (list Q) := [
  [0.064056892862605626085; 0.127938195346752156974];
  [0.191118867473616309159; 0.125837456346828296121];
  [0.315042679696163374387; 0.121670472927803391204];
  [0.433793507626045138487; 0.115505668053725601353];
  [0.545421471388839535658; 0.107444270115965634783];
  [0.648093651936975569252; 0.097618652104113888270];
  [0.740124191578554364244; 0.086190161531953275917];
  [0.820001985973902921954; 0.073346481411080305734];
  [0.886415527004401034213; 0.059298584915436780746];
  [0.938274552002732758524; 0.044277438817419806169];
  [0.974728555971309498198; 0.028531388628933663181];
  [0.995187219997021360180; 0.012341229799987199547]]%Q.
(** l.342-343: '2_3', 1 *)
Definition q2_3_1 : list (list Q) := [
  [1 # 3; 1 # 3; 0.5]]%Q.
(** l.345-348: '2_3', 2 *)
Definition q2_3_2 : list (list Q) := [
  [1 # 6; 1 # 6; 1 # 6];
  [2 # 3; 1 # 6; 1 # 6];
  [1 # 6; 2 # 3; 1 # 6]]%Q.
(** l.350-354: '2_3', 3 *)
Definition q2_3_3 : list (list Q) := [
  [1 # 3; 1 # 3; -27 # 96];
  [1 # 5; 1 # 5; 25 # 96];
  [3 # 5; 1 # 5; 25 # 96];
  [1 # 5; 3 # 5; 25 # 96]]%Q.
(** l.356-362: '2_3', 4 *)
Definition q2_3_4 : list (list Q) := [
  [0.445948490915965; 0.445948490915965; 0.223381589678011];
  [0.108103018168070; 0.445948490915965; 0.223381589678011];
  [0.445948490915965; 0.108103018168070; 0.223381589678011];
  [0.091576213509771; 0.091576213509771; 0.109951743655322];
  [0.816847572980459; 0.091576213509771; 0.109951743655322];
  [0.091576213509771; 0.816847572980459; 0.109951743655322]]%Q.
(** l.363-370: '2_3', 5 *)
Definition q2_3_5 : list (list Q) := [
  [0.333333333333333; 0.333333333333333; 0.225000000000000];
  [0.470142064105115; 0.470142064105115; 0.132394152788506];
  [0.059715871789770; 0.470142064105115; 0.132394152788506];
  [0.470142064105115; 0.059715871789770; 0.132394152788506];
  [0.101286507323456; 0.101286507323456; 0.125939180544827];
  [0.797426985353087; 0.101286507323456; 0.125939180544827];
  [0.101286507323456; 0.797426985353087; 0.125939180544827]]%Q.
(** l.371-383: '2_3', 6 *)
Definition q2_3_6 : list (list Q) := [
  [0.249286745170910; 0.249286745170910; 0.116786275726379];
  [0.501426509658179; 0.249286745170910; 0.116786275726379];
  [0.249286745170910; 0.501426509658179; 0.116786275726379];
  [0.063089014491502; 0.063089014491502; 0.050844906370207];
  [0.873821971016996; 0.063089014491502; 0.050844906370207];
  [0.063089014491502; 0.873821971016996; 0.050844906370207];
  [0.310352451033784; 0.636502499121399; 0.082851075618374];
  [0.636502499121399; 0.310352451033784; 0.082851075618374];
  [0.053145049844817; 0.636502499121399; 0.082851075618374];
  [0.636502499121399; 0.053145049844817; 0.082851075618374];
  [0.310352451033784; 0.053145049844817; 0.082851075618374];
  [0.053145049844817; 0.310352451033784; 0.082851075618374]]%Q.
(** l.384-397: '2_3', 7 *)
Definition q2_3_7 : list (list Q) := [
  [0.333333333333333; 0.333333333333333; - 0.149570044467682];
  [0.260345966079040; 0.260345966079040; 0.175615257433208];
  [0.479308067841920; 0.260345966079040; 0.175615257433208];
  [0.260345966079040; 0.479308067841920; 0.175615257433208];
  [0.065130102902216; 0.065130102902216; 0.053347235608838];
  [0.869739794195568; 0.065130102902216; 0.053347235608838];
  [0.065130102902216; 0.869739794195568; 0.053347235608838];
  [0.312865496004874; 0.638444188569810; 0.077113760890257];
  [0.638444188569810; 0.312865496004874; 0.077113760890257];
  [0.048690315425316; 0.638444188569810; 0.077113760890257];
  [0.638444188569810; 0.048690315425316; 0.077113760890257];
  [0.312865496004874; 0.048690315425316; 0.077113760890257];
  [0.048690315425316; 0.312865496004874; 0.077113760890257]]%Q.
(** l.398-414: '2_3', 8 *)
Definition q2_3_8 : list (list Q) := [
  [0.333333333333333; 0.333333333333333; 0.144315607677787];
  [0.459292588292723; 0.459292588292723; 0.095091634267285];
  [0.081414823414554; 0.459292588292723; 0.095091634267285];
  [0.459292588292723; 0.081414823414554; 0.095091634267285];
  [0.170569307751760; 0.170569307751760; 0.103217370534718];
  [0.658861384496480; 0.170569307751760; 0.103217370534718];
  [0.170569307751760; 0.658861384496480; 0.103217370534718];
  [0.050547228317031; 0.050547228317031; 0.032458497623198];
  [0.898905543365938; 0.050547228317031; 0.032458497623198];
  [0.050547228317031; 0.898905543365938; 0.032458497623198];
  [0.263112829634638; 0.728492392955404; 0.027230314174435];
  [0.728492392955404; 0.263112829634638; 0.027230314174435];
  [0.008394777409958; 0.728492392955404; 0.027230314174435];
  [0.728492392955404; 0.008394777409958; 0.027230314174435];
  [0.263112829634638; 0.008394777409958; 0.027230314174435];
  [0.008394777409958; 0.263112829634638; 0.027230314174435]]%Q.
(** l.415-434: '2_3', 9 *)
Definition q2_3_9 : list (list Q) := [
  [0.333333333333333; 0.333333333333333; 0.097135796282799];
  [0.489682519198738; 0.489682519198738; 0.031334700227139];
  [0.020634961602525; 0.489682519198738; 0.031334700227139];
  [0.489682519198738; 0.020634961602525; 0.031334700227139];
  [0.437089591492937; 0.437089591492937; 0.077827541004774];
  [0.125820817014127; 0.437089591492937; 0.077827541004774];
  [0.437089591492937; 0.125820817014127; 0.077827541004774];
  [0.188203535619033; 0.188203535619033; 0.079647738927210];
  [0.623592928761935; 0.188203535619033; 0.079647738927210];
  [0.188203535619033; 0.623592928761935; 0.079647738927210];
  [0.044729513394453; 0.044729513394453; 0.025577675658698];
  [0.910540973211095; 0.044729513394453; 0.025577675658698];
  [0.044729513394453; 0.910540973211095; 0.025577675658698];
  [0.221962989160766; 0.741198598784498; 0.043283539377289];
  [0.741198598784498; 0.221962989160766; 0.043283539377289];
  [0.036838412054736; 0.741198598784498; 0.043283539377289];
  [0.741198598784498; 0.036838412054736; 0.043283539377289];
  [0.221962989160766; 0.036838412054736; 0.043283539377289];
  [0.036838412054736; 0.221962989160766; 0.043283539377289]]%Q.
(** l.435-460: '2_3', 10 *)
Definition q2_3_10 : list (list Q) := [
  [0.333333333333333; 0.333333333333333; 0.0908179903827540];
  [0.485577633383657; 0.485577633383657; 0.0367259577564670];
  [0.0288447332326850; 0.485577633383657; 0.0367259577564670];
  [0.485577633383657; 0.0288447332326850; 0.0367259577564670];
  [0.109481575485037; 0.109481575485037; 0.0453210594355280];
  [0.781036849029926; 0.109481575485037; 0.0453210594355280];
  [0.109481575485037; 0.781036849029926; 0.0453210594355280];
  [0.307939838764121; 0.550352941820999; 0.0727579168454200];
  [0.550352941820999; 0.307939838764121; 0.0727579168454200];
  [0.141707219414880; 0.550352941820999; 0.0727579168454200];
  [0.550352941820999; 0.141707219414880; 0.0727579168454200];
  [0.307939838764121; 0.141707219414880; 0.0727579168454200];
  [0.141707219414880; 0.307939838764121; 0.0727579168454200];
  [0.246672560639903; 0.728323904597411; 0.0283272425310570];
  [0.728323904597411; 0.246672560639903; 0.0283272425310570];
  [0.0250035347626860; 0.728323904597411; 0.0283272425310570];
  [0.728323904597411; 0.0250035347626860; 0.0283272425310570];
  [0.246672560639903; 0.0250035347626860; 0.0283272425310570];
  [0.0250035347626860; 0.246672560639903; 0.0283272425310570];
  [0.0668032510122000; 0.923655933587500; 0.00942166696373300];
  [0.923655933587500; 0.0668032510122000; 0.00942166696373300];
  [0.00954081540029900; 0.923655933587500; 0.00942166696373300];
  [0.923655933587500; 0.00954081540029900; 0.00942166696373300];
  [0.0668032510122000; 0.00954081540029900; 0.00942166696373300];
  [0.00954081540029900; 0.0668032510122000; 0.00942166696373300]]%Q.
(** l.461-494: '2_3', 12 *)
Definition q2_3_12 : list (list Q) := [
  [0.488217389773805; 0.488217389773805; 0.0257310664404550];
  [0.0235652204523900; 0.488217389773805; 0.0257310664404550];
  [0.488217389773805; 0.0235652204523900; 0.0257310664404550];
  [0.439724392294460; 0.439724392294460; 0.0436925445380380];
  [0.120551215411079; 0.439724392294460; 0.0436925445380380];
  [0.439724392294460; 0.120551215411079; 0.0436925445380380];
  [0.271210385012116; 0.271210385012116; 0.0628582242178850];
  [0.457579229975768; 0.271210385012116; 0.0628582242178850];
  [0.271210385012116; 0.457579229975768; 0.0628582242178850];
  [0.127576145541586; 0.127576145541586; 0.0347961129307090];
  [0.744847708916828; 0.127576145541586; 0.0347961129307090];
  [0.127576145541586; 0.744847708916828; 0.0347961129307090];
  [0.0213173504532100; 0.0213173504532100; 0.00616626105155900];
  [0.957365299093579; 0.0213173504532100; 0.00616626105155900];
  [0.0213173504532100; 0.957365299093579; 0.00616626105155900];
  [0.275713269685514; 0.608943235779788; 0.0403715577663810];
  [0.608943235779788; 0.275713269685514; 0.0403715577663810];
  [0.115343494534698; 0.608943235779788; 0.0403715577663810];
  [0.608943235779788; 0.115343494534698; 0.0403715577663810];
  [0.275713269685514; 0.115343494534698; 0.0403715577663810];
  [0.115343494534698; 0.275713269685514; 0.0403715577663810];
  [0.281325580989940; 0.695836086787803; 0.0223567732023030];
  [0.695836086787803; 0.281325580989940; 0.0223567732023030];
  [0.0228383322222570; 0.695836086787803; 0.0223567732023030];
  [0.695836086787803; 0.0228383322222570; 0.0223567732023030];
  [0.281325580989940; 0.0228383322222570; 0.0223567732023030];
  [0.0228383322222570; 0.281325580989940; 0.0223567732023030];
  [0.116251915907597; 0.858014033544073; 0.0173162311086590];
  [0.858014033544073; 0.116251915907597; 0.0173162311086590];
  [0.0257340505483300; 0.858014033544073; 0.0173162311086590];
  [0.858014033544073; 0.0257340505483300; 0.0173162311086590];
  [0.116251915907597; 0.0257340505483300; 0.0173162311086590];
  [0.0257340505483300; 0.116251915907597; 0.0173162311086590]]%Q.
(** l.495-532: '2_3', 13 *)
Definition q2_3_13 : list (list Q) := [
  [0.333333333333333; 0.333333333333333; 0.0525209234008020];
  [0.495048184939705; 0.495048184939705; 0.0112801452093300];
  [0.00990363012059100; 0.495048184939705; 0.0112801452093300];
  [0.495048184939705; 0.00990363012059100; 0.0112801452093300];
  [0.468716635109574; 0.468716635109574; 0.0314235183624540];
  [0.0625667297808520; 0.468716635109574; 0.0314235183624540];
  [0.468716635109574; 0.0625667297808520; 0.0314235183624540];
  [0.414521336801277; 0.414521336801277; 0.0470725025041940];
  [0.170957326397447; 0.414521336801277; 0.0470725025041940];
  [0.414521336801277; 0.170957326397447; 0.0470725025041940];
  [0.229399572042831; 0.229399572042831; 0.0473635865363550];
  [0.541200855914337; 0.229399572042831; 0.0473635865363550];
  [0.229399572042831; 0.541200855914337; 0.0473635865363550];
  [0.114424495196330; 0.114424495196330; 0.0311675290457940];
  [0.771151009607340; 0.114424495196330; 0.0311675290457940];
  [0.114424495196330; 0.771151009607340; 0.0311675290457940];
  [0.0248113913634590; 0.0248113913634590; 0.00797577146507400];
  [0.950377217273082; 0.0248113913634590; 0.00797577146507400];
  [0.0248113913634590; 0.950377217273082; 0.00797577146507400];
  [0.268794997058761; 0.636351174561660; 0.0368484027287320];
  [0.636351174561660; 0.268794997058761; 0.0368484027287320];
  [0.0948538283795790; 0.636351174561660; 0.0368484027287320];
  [0.636351174561660; 0.0948538283795790; 0.0368484027287320];
  [0.268794997058761; 0.0948538283795790; 0.0368484027287320];
  [0.0948538283795790; 0.268794997058761; 0.0368484027287320];
  [0.291730066734288; 0.690169159986905; 0.0174014633038220];
  [0.690169159986905; 0.291730066734288; 0.0174014633038220];
  [0.0181007732788070; 0.690169159986905; 0.0174014633038220];
  [0.690169159986905; 0.0181007732788070; 0.0174014633038220];
  [0.291730066734288; 0.0181007732788070; 0.0174014633038220];
  [0.0181007732788070; 0.291730066734288; 0.0174014633038220];
  [0.126357385491669; 0.851409537834241; 0.0155217868390450];
  [0.851409537834241; 0.126357385491669; 0.0155217868390450];
  [0.0222330766740900; 0.851409537834241; 0.0155217868390450];
  [0.851409537834241; 0.0222330766740900; 0.0155217868390450];
  [0.126357385491669; 0.0222330766740900; 0.0155217868390450];
  [0.0222330766740900; 0.126357385491669; 0.0155217868390450]]%Q.
(** l.533-575: '2_3', 14 *)
Definition q2_3_14 : list (list Q) := [
  [0.488963910362179; 0.488963910362179; 0.0218835813694290];
  [0.0220721792756430; 0.488963910362179; 0.0218835813694290];
  [0.488963910362179; 0.0220721792756430; 0.0218835813694290];
  [0.417644719340454; 0.417644719340454; 0.0327883535441250];
  [0.164710561319092; 0.417644719340454; 0.0327883535441250];
  [0.417644719340454; 0.164710561319092; 0.0327883535441250];
  [0.273477528308839; 0.273477528308839; 0.0517741045072920];
  [0.453044943382323; 0.273477528308839; 0.0517741045072920];
  [0.273477528308839; 0.453044943382323; 0.0517741045072920];
  [0.177205532412543; 0.177205532412543; 0.0421625887369930];
  [0.645588935174913; 0.177205532412543; 0.0421625887369930];
  [0.177205532412543; 0.645588935174913; 0.0421625887369930];
  [0.0617998830908730; 0.0617998830908730; 0.0144336996697770];
  [0.876400233818255; 0.0617998830908730; 0.0144336996697770];
  [0.0617998830908730; 0.876400233818255; 0.0144336996697770];
  [0.0193909612487010; 0.0193909612487010; 0.00492340360240000];
  [0.961218077502598; 0.0193909612487010; 0.00492340360240000];
  [0.0193909612487010; 0.961218077502598; 0.00492340360240000];
  [0.172266687821356; 0.770608554774996; 0.0246657532125640];
  [0.770608554774996; 0.172266687821356; 0.0246657532125640];
  [0.0571247574036480; 0.770608554774996; 0.0246657532125640];
  [0.770608554774996; 0.0571247574036480; 0.0246657532125640];
  [0.172266687821356; 0.0571247574036480; 0.0246657532125640];
  [0.0571247574036480; 0.172266687821356; 0.0246657532125640];
  [0.336861459796345; 0.570222290846683; 0.0385715107870610];
  [0.570222290846683; 0.336861459796345; 0.0385715107870610];
  [0.0929162493569720; 0.570222290846683; 0.0385715107870610];
  [0.570222290846683; 0.0929162493569720; 0.0385715107870610];
  [0.336861459796345; 0.0929162493569720; 0.0385715107870610];
  [0.0929162493569720; 0.336861459796345; 0.0385715107870610];
  [0.298372882136258; 0.686980167808088; 0.0144363081135340];
  [0.686980167808088; 0.298372882136258; 0.0144363081135340];
  [0.0146469500556540; 0.686980167808088; 0.0144363081135340];
  [0.686980167808088; 0.0146469500556540; 0.0144363081135340];
  [0.298372882136258; 0.0146469500556540; 0.0144363081135340];
  [0.0146469500556540; 0.298372882136258; 0.0144363081135340];
  [0.118974497696957; 0.879757171370171; 0.00501022883850100];
  [0.879757171370171; 0.118974497696957; 0.00501022883850100];
  [0.00126833093287200; 0.879757171370171; 0.00501022883850100];
  [0.879757171370171; 0.00126833093287200; 0.00501022883850100];
  [0.118974497696957; 0.00126833093287200; 0.00501022883850100];
  [0.00126833093287200; 0.118974497696957; 0.00501022883850100]]%Q.
(** l.576-637: '2_3', 17 *)
Definition q2_3_17 : list (list Q) := [
  [0.333333333333333; 0.333333333333333; 0.0334371992908030];
  [0.497170540556774; 0.497170540556774; 0.00509341544050700];
  [0.00565891888645200; 0.497170540556774; 0.00509341544050700];
  [0.497170540556774; 0.00565891888645200; 0.00509341544050700];
  [0.482176322624625; 0.482176322624625; 0.0146708645276380];
  [0.0356473547507510; 0.482176322624625; 0.0146708645276380];
  [0.482176322624625; 0.0356473547507510; 0.0146708645276380];
  [0.450239969020782; 0.450239969020782; 0.0243508783536720];
  [0.0995200619584370; 0.450239969020782; 0.0243508783536720];
  [0.450239969020782; 0.0995200619584370; 0.0243508783536720];
  [0.400266239377397; 0.400266239377397; 0.0311075508689690];
  [0.199467521245206; 0.400266239377397; 0.0311075508689690];
  [0.400266239377397; 0.199467521245206; 0.0311075508689690];
  [0.252141267970953; 0.252141267970953; 0.0312571112186200];
  [0.495717464058095; 0.252141267970953; 0.0312571112186200];
  [0.252141267970953; 0.495717464058095; 0.0312571112186200];
  [0.162047004658461; 0.162047004658461; 0.0248156543396650];
  [0.675905990683077; 0.162047004658461; 0.0248156543396650];
  [0.162047004658461; 0.675905990683077; 0.0248156543396650];
  [0.0758758822607460; 0.0758758822607460; 0.0140560730705570];
  [0.848248235478508; 0.0758758822607460; 0.0140560730705570];
  [0.0758758822607460; 0.848248235478508; 0.0140560730705570];
  [0.0156547269678220; 0.0156547269678220; 0.00319467617377900];
  [0.968690546064356; 0.0156547269678220; 0.00319467617377900];
  [0.0156547269678220; 0.968690546064356; 0.00319467617377900];
  [0.334319867363658; 0.655493203809423; 0.00811965531899300];
  [0.655493203809423; 0.334319867363658; 0.00811965531899300];
  [0.0101869288269190; 0.655493203809423; 0.00811965531899300];
  [0.655493203809423; 0.0101869288269190; 0.00811965531899300];
  [0.334319867363658; 0.0101869288269190; 0.00811965531899300];
  [0.0101869288269190; 0.334319867363658; 0.00811965531899300];
  [0.292221537796944; 0.572337590532020; 0.0268057422831630];
  [0.572337590532020; 0.292221537796944; 0.0268057422831630];
  [0.135440871671036; 0.572337590532020; 0.0268057422831630];
  [0.572337590532020; 0.135440871671036; 0.0268057422831630];
  [0.292221537796944; 0.135440871671036; 0.0268057422831630];
  [0.135440871671036; 0.292221537796944; 0.0268057422831630];
  [0.319574885423190; 0.626001190286228; 0.0184599932108220];
  [0.626001190286228; 0.319574885423190; 0.0184599932108220];
  [0.0544239242905830; 0.626001190286228; 0.0184599932108220];
  [0.626001190286228; 0.0544239242905830; 0.0184599932108220];
  [0.319574885423190; 0.0544239242905830; 0.0184599932108220];
  [0.0544239242905830; 0.319574885423190; 0.0184599932108220];
  [0.190704224192292; 0.796427214974071; 0.00847686853432800];
  [0.796427214974071; 0.190704224192292; 0.00847686853432800];
  [0.0128685608336370; 0.796427214974071; 0.00847686853432800];
  [0.796427214974071; 0.0128685608336370; 0.00847686853432800];
  [0.190704224192292; 0.0128685608336370; 0.00847686853432800];
  [0.0128685608336370; 0.190704224192292; 0.00847686853432800];
  [0.180483211648746; 0.752351005937729; 0.0182927967700250];
  [0.752351005937729; 0.180483211648746; 0.0182927967700250];
  [0.0671657824135240; 0.752351005937729; 0.0182927967700250];
  [0.752351005937729; 0.0671657824135240; 0.0182927967700250];
  [0.180483211648746; 0.0671657824135240; 0.0182927967700250];
  [0.0671657824135240; 0.180483211648746; 0.0182927967700250];
  [0.0807113136795640; 0.904625504095608; 0.00666563200416500];
  [0.904625504095608; 0.0807113136795640; 0.00666563200416500];
  [0.0146631822248280; 0.904625504095608; 0.00666563200416500];
  [0.904625504095608; 0.0146631822248280; 0.00666563200416500];
  [0.0807113136795640; 0.0146631822248280; 0.00666563200416500];
  [0.0146631822248280; 0.0807113136795640; 0.00666563200416500]]%Q.
(** l.638-711: '2_3', 19 *)
Definition q2_3_19 : list (list Q) := [
  [0.333333333333333; 0.333333333333333; 0.0329063313889190];
  [0.489609987073006; 0.489609987073006; 0.0103307318912720];
  [0.0207800258539870; 0.489609987073006; 0.0103307318912720];
  [0.489609987073006; 0.0207800258539870; 0.0103307318912720];
  [0.454536892697893; 0.454536892697893; 0.0223872472630160];
  [0.0909262146042150; 0.454536892697893; 0.0223872472630160];
  [0.454536892697893; 0.0909262146042150; 0.0223872472630160];
  [0.401416680649431; 0.401416680649431; 0.0302661258694680];
  [0.197166638701138; 0.401416680649431; 0.0302661258694680];
  [0.401416680649431; 0.197166638701138; 0.0302661258694680];
  [0.255551654403098; 0.255551654403098; 0.0304909678021980];
  [0.488896691193805; 0.255551654403098; 0.0304909678021980];
  [0.255551654403098; 0.488896691193805; 0.0304909678021980];
  [0.177077942152130; 0.177077942152130; 0.0241592127416410];
  [0.645844115695741; 0.177077942152130; 0.0241592127416410];
  [0.177077942152130; 0.645844115695741; 0.0241592127416410];
  [0.110061053227952; 0.110061053227952; 0.0160508035868010];
  [0.779877893544096; 0.110061053227952; 0.0160508035868010];
  [0.110061053227952; 0.779877893544096; 0.0160508035868010];
  [0.0555286242518400; 0.0555286242518400; 0.00808458026178400];
  [0.888942751496321; 0.0555286242518400; 0.00808458026178400];
  [0.0555286242518400; 0.888942751496321; 0.00808458026178400];
  [0.0126218637772290; 0.0126218637772290; 0.00207936202748500];
  [0.974756272445543; 0.0126218637772290; 0.00207936202748500];
  [0.0126218637772290; 0.974756272445543; 0.00207936202748500];
  [0.395754787356943; 0.600633794794645; 0.00388487690498100];
  [0.600633794794645; 0.395754787356943; 0.00388487690498100];
  [0.00361141784841200; 0.600633794794645; 0.00388487690498100];
  [0.600633794794645; 0.00361141784841200; 0.00388487690498100];
  [0.395754787356943; 0.00361141784841200; 0.00388487690498100];
  [0.00361141784841200; 0.395754787356943; 0.00388487690498100];
  [0.307929983880436; 0.557603261588784; 0.0255741606120220];
  [0.557603261588784; 0.307929983880436; 0.0255741606120220];
  [0.134466754530780; 0.557603261588784; 0.0255741606120220];
  [0.557603261588784; 0.134466754530780; 0.0255741606120220];
  [0.307929983880436; 0.134466754530780; 0.0255741606120220];
  [0.134466754530780; 0.307929983880436; 0.0255741606120220];
  [0.264566948406520; 0.720987025817365; 0.00888090357333800];
  [0.720987025817365; 0.264566948406520; 0.00888090357333800];
  [0.0144460257761150; 0.720987025817365; 0.00888090357333800];
  [0.720987025817365; 0.0144460257761150; 0.00888090357333800];
  [0.264566948406520; 0.0144460257761150; 0.00888090357333800];
  [0.0144460257761150; 0.264566948406520; 0.00888090357333800];
  [0.358539352205951; 0.594527068955871; 0.0161245467617310];
  [0.594527068955871; 0.358539352205951; 0.0161245467617310];
  [0.0469335788381780; 0.594527068955871; 0.0161245467617310];
  [0.594527068955871; 0.0469335788381780; 0.0161245467617310];
  [0.358539352205951; 0.0469335788381780; 0.0161245467617310];
  [0.0469335788381780; 0.358539352205951; 0.0161245467617310];
  [0.157807405968595; 0.839331473680839; 0.00249194181749100];
  [0.839331473680839; 0.157807405968595; 0.00249194181749100];
  [0.00286112035056700; 0.839331473680839; 0.00249194181749100];
  [0.839331473680839; 0.00286112035056700; 0.00249194181749100];
  [0.157807405968595; 0.00286112035056700; 0.00249194181749100];
  [0.00286112035056700; 0.157807405968595; 0.00249194181749100];
  [0.0750505969759110; 0.701087978926173; 0.0182428401189510];
  [0.701087978926173; 0.0750505969759110; 0.0182428401189510];
  [0.223861424097916; 0.701087978926173; 0.0182428401189510];
  [0.701087978926173; 0.223861424097916; 0.0182428401189510];
  [0.0750505969759110; 0.223861424097916; 0.0182428401189510];
  [0.223861424097916; 0.0750505969759110; 0.0182428401189510];
  [0.142421601113383; 0.822931324069857; 0.0102585637361990];
  [0.822931324069857; 0.142421601113383; 0.0102585637361990];
  [0.0346470748167600; 0.822931324069857; 0.0102585637361990];
  [0.822931324069857; 0.0346470748167600; 0.0102585637361990];
  [0.142421601113383; 0.0346470748167600; 0.0102585637361990];
  [0.0346470748167600; 0.142421601113383; 0.0102585637361990];
  [0.0654946280829380; 0.924344252620784; 0.00379992885530200];
  [0.924344252620784; 0.0654946280829380; 0.00379992885530200];
  [0.0101611192962780; 0.924344252620784; 0.00379992885530200];
  [0.924344252620784; 0.0101611192962780; 0.00379992885530200];
  [0.0654946280829380; 0.0101611192962780; 0.00379992885530200];
  [0.0101611192962780; 0.0654946280829380; 0.00379992885530200]]%Q.
(** l.716-718: '2_4', 2 *)
Definition q2_4_2 : list (list R) := [
  [sqrt (2 / 3); 0; 4 / 3];
  [- 1 / sqrt 6; 1 / sqrt 2; 4 / 3];
  [- 1 / sqrt 6; - 1 / sqrt 2; 4 / 3]]%R.
(** l.720-723: '2_4', 3 *)
Definition q2_4_3 : list (list R) := [
  [- 1 / sqrt 3; - 1 / sqrt 3; 1];
  [1 / sqrt 3; - 1 / sqrt 3; 1];
  [1 / sqrt 3; 1 / sqrt 3; 1];
  [- 1 / sqrt 3; 1 / sqrt 3; 1]]%R.
(** l.725-732: '2_4', 5 *)
Definition q2_4_5 : list (list R) := [
  [sqrt (7 / 15); 0; 816326530612245 / 1000000000000000];
  [- sqrt (7 / 15); 0; 816326530612245 / 1000000000000000];
  [0; sqrt (7 / 15); 816326530612245 / 1000000000000000];
  [0; - sqrt (7 / 15); 816326530612245 / 1000000000000000];
  [881917103688197 / 1000000000000000; 881917103688197 / 1000000000000000; 183673469387755 / 1000000000000000];
  [881917103688197 / 1000000000000000; - (881917103688197 / 1000000000000000); 183673469387755 / 1000000000000000];
  [- (881917103688197 / 1000000000000000); 881917103688197 / 1000000000000000; 183673469387755 / 1000000000000000];
  [- (881917103688197 / 1000000000000000); - (881917103688197 / 1000000000000000); 183673469387755 / 1000000000000000]]%R.
(** l.737-737: '3_4', 1 *)
Definition q3_4_1 : list (list Q) := [
  [1 # 4; 1 # 4; 1 # 4; 1 # 6]]%Q.
(** l.739-742: '3_4', 2 *)
Definition q3_4_2 : list (list R) := [
  [(5 - sqrt 5) / 20; (5 - sqrt 5) / 20; (5 - sqrt 5) / 20; 1 / 24];
  [(5 - sqrt 5) / 20; (5 - sqrt 5) / 20; (5 + 3 * sqrt 5) / 20; 1 / 24];
  [(5 - sqrt 5) / 20; (5 + 3 * sqrt 5) / 20; (5 - sqrt 5) / 20; 1 / 24];
  [(5 + 3 * sqrt 5) / 20; (5 - sqrt 5) / 20; (5 - sqrt 5) / 20; 1 / 24]]%R.
(** l.744-748: '3_4', 3 *)
Definition q3_4_3 : list (list Q) := [
  [1 # 4; 1 # 4; 1 # 4; -2 # 15];
  [1 # 6; 1 # 6; 1 # 6; 3 # 40];
  [1 # 6; 1 # 6; 1 # 2; 3 # 40];
  [1 # 6; 1 # 2; 1 # 6; 3 # 40];
  [1 # 2; 1 # 6; 1 # 6; 3 # 40]]%Q.
(** l.750-761: '3_4', 4 *)
Definition q3_4_4 : list (list Q) := [
  [- 0.5000000000000000; - 0.5000000000000000; - 0.5000000000000000; - 0.1052444444444440];
  [- 0.8571428571428570; - 0.8571428571428570; - 0.8571428571428570; 0.0609777777777780];
  [- 0.8571428571428570; - 0.8571428571428570; 0.5714285714285710; 0.0609777777777780];
  [- 0.8571428571428570; 0.5714285714285710; - 0.8571428571428570; 0.0609777777777780];
  [0.5714285714285710; - 0.8571428571428570; - 0.8571428571428570; 0.0609777777777780];
  [- 0.2011928476664020; - 0.2011928476664020; - 0.7988071523335980; 0.1991111111111110];
  [- 0.2011928476664020; - 0.7988071523335980; - 0.2011928476664020; 0.1991111111111110];
  [- 0.7988071523335980; - 0.2011928476664020; - 0.2011928476664020; 0.1991111111111110];
  [- 0.2011928476664020; - 0.7988071523335980; - 0.7988071523335980; 0.1991111111111110];
  [- 0.7988071523335980; - 0.2011928476664020; - 0.7988071523335980; 0.1991111111111110];
  [- 0.7988071523335980; - 0.7988071523335980; - 0.2011928476664020; 0.1991111111111110]]%Q.
(** l.763-787: '3_4', 6 *)
Definition q3_4_6 : list (list Q) := [
  [- 0.5707942574816960; - 0.5707942574816960; - 0.5707942574816960; 0.0532303336775570];
  [- 0.2876172275549120; - 0.5707942574816960; - 0.5707942574816960; 0.0532303336775570];
  [- 0.5707942574816960; - 0.2876172275549120; - 0.5707942574816960; 0.0532303336775570];
  [- 0.5707942574816960; - 0.5707942574816960; - 0.2876172275549120; 0.0532303336775570];
  [- 0.9186520829307770; - 0.9186520829307770; - 0.9186520829307770; 0.0134362814070940];
  [0.7559562487923320; - 0.9186520829307770; - 0.9186520829307770; 0.0134362814070940];
  [- 0.9186520829307770; 0.7559562487923320; - 0.9186520829307770; 0.0134362814070940];
  [- 0.9186520829307770; - 0.9186520829307770; 0.7559562487923320; 0.0134362814070940];
  [- 0.3553242197154490; - 0.3553242197154490; - 0.3553242197154490; 0.0738095753915400];
  [- 0.9340273408536530; - 0.3553242197154490; - 0.3553242197154490; 0.0738095753915400];
  [- 0.3553242197154490; - 0.9340273408536530; - 0.3553242197154490; 0.0738095753915400];
  [- 0.3553242197154490; - 0.3553242197154490; - 0.9340273408536530; 0.0738095753915400];
  [- 0.8726779962499650; - 0.8726779962499650; - 0.4606553370833680; 0.0642857142857140];
  [- 0.8726779962499650; - 0.4606553370833680; - 0.8726779962499650; 0.0642857142857140];
  [- 0.8726779962499650; - 0.8726779962499650; 0.2060113295832980; 0.0642857142857140];
  [- 0.8726779962499650; 0.2060113295832980; - 0.8726779962499650; 0.0642857142857140];
  [- 0.8726779962499650; - 0.4606553370833680; 0.2060113295832980; 0.0642857142857140];
  [- 0.8726779962499650; 0.2060113295832980; - 0.4606553370833680; 0.0642857142857140];
  [- 0.4606553370833680; - 0.8726779962499650; - 0.8726779962499650; 0.0642857142857140];
  [- 0.4606553370833680; - 0.8726779962499650; 0.2060113295832980; 0.0642857142857140];
  [- 0.4606553370833680; 0.2060113295832980; - 0.8726779962499650; 0.0642857142857140];
  [0.2060113295832980; - 0.8726779962499650; - 0.4606553370833680; 0.0642857142857140];
  [0.2060113295832980; - 0.8726779962499650; - 0.8726779962499650; 0.0642857142857140];
  [0.2060113295832980; - 0.4606553370833680; - 0.8726779962499650; 0.0642857142857140]]%Q.
(** l.792-793: '3_6', 3 *)
Definition q3_6_3 : list (list Q) := [
  [1 # 3; 1 # 3; 0.5; 0.5]]%Q.
(** l.794-800: '3_6', 6 *)
Definition q3_6_6 : list (list Q) := [
  [1 # 6; 1 # 6; 0.2113248654051871; 1 # 12];
  [2 # 3; 1 # 6; 0.2113248654051871; 1 # 12];
  [1 # 6; 2 # 3; 0.2113248654051871; 1 # 12];
  [1 # 6; 1 # 6; 0.7886751345948129; 1 # 12];
  [2 # 3; 1 # 6; 0.7886751345948129; 1 # 12];
  [1 # 6; 2 # 3; 0.7886751345948129; 1 # 12]]%Q.
(** l.801-819: '3_6', 9 *)
Definition q3_6_9 : list (list Q) := [
  [0.1081030181680702; 0.4459484909159649; 0.1127016653792583; 0.0310252207886127];
  [0.4459484909159649; 0.1081030181680702; 0.1127016653792583; 0.0310252207886127];
  [0.4459484909159649; 0.4459484909159649; 0.1127016653792583; 0.0310252207886127];
  [0.8168475729804585; 0.0915762135097707; 0.1127016653792583; 0.0152710755076836];
  [0.0915762135097707; 0.8168475729804585; 0.1127016653792583; 0.0152710755076836];
  [0.0915762135097707; 0.0915762135097707; 0.1127016653792583; 0.0152710755076836];
  [0.1081030181680702; 0.4459484909159649; 0.5000000000000000; 0.0496403532617803];
  [0.4459484909159649; 0.1081030181680702; 0.5000000000000000; 0.0496403532617803];
  [0.4459484909159649; 0.4459484909159649; 0.5000000000000000; 0.0496403532617803];
  [0.8168475729804585; 0.0915762135097707; 0.5000000000000000; 0.0244337208122937];
  [0.0915762135097707; 0.8168475729804585; 0.5000000000000000; 0.0244337208122937];
  [0.0915762135097707; 0.0915762135097707; 0.5000000000000000; 0.0244337208122937];
  [0.1081030181680702; 0.4459484909159649; 0.8872983346207417; 0.0310252207886127];
  [0.4459484909159649; 0.1081030181680702; 0.8872983346207417; 0.0310252207886127];
  [0.4459484909159649; 0.4459484909159649; 0.8872983346207417; 0.0310252207886127];
  [0.8168475729804585; 0.0915762135097707; 0.8872983346207417; 0.0152710755076836];
  [0.0915762135097707; 0.8168475729804585; 0.8872983346207417; 0.0152710755076836];
  [0.0915762135097707; 0.0915762135097707; 0.8872983346207417; 0.0152710755076836]]%Q.
(** l.824-827: '3_8', 2 *)
Definition q3_8_2 : list (list R) := [
  [0; sqrt (2 / 3); - 1 / sqrt 3; 2];
  [0; - sqrt (2 / 3); - 1 / sqrt 3; 2];
  [sqrt (2 / 3); 0; 1 / sqrt 3; 2];
  [- sqrt (2 / 3); 0; 1 / sqrt 3; 2]]%R.
(** l.829-834: '3_8', 3 *)
Definition q3_8_3 : list (list Q) := [
  [- 1; 0; 0; 4 # 3];
  [1; 0; 0; 4 # 3];
  [0; - 1; 0; 4 # 3];
  [0; 1; 0; 4 # 3];
  [0; 0; - 1; 4 # 3];
  [0; 0; 1; 4 # 3]]%Q.
(** l.836-849: '3_8', 5 *)
Definition q3_8_5 : list (list R) := [
  [- sqrt (19 / 30); 0; 0; 320 / 361];
  [sqrt (19 / 30); 0; 0; 320 / 361];
  [0; - sqrt (19 / 30); 0; 320 / 361];
  [0; sqrt (19 / 30); 0; 320 / 361];
  [0; 0; - sqrt (19 / 30); 320 / 361];
  [0; 0; sqrt (19 / 30); 320 / 361];
  [sqrt (19 / 33); sqrt (19 / 33); sqrt (19 / 33); 121 / 361];
  [sqrt (19 / 33); sqrt (19 / 33); - sqrt (19 / 33); 121 / 361];
  [sqrt (19 / 33); - sqrt (19 / 33); sqrt (19 / 33); 121 / 361];
  [sqrt (19 / 33); - sqrt (19 / 33); - sqrt (19 / 33); 121 / 361];
  [- sqrt (19 / 33); sqrt (19 / 33); sqrt (19 / 33); 121 / 361];
  [- sqrt (19 / 33); sqrt (19 / 33); - sqrt (19 / 33); 121 / 361];
  [- sqrt (19 / 33); - sqrt (19 / 33); sqrt (19 / 33); 121 / 361];
  [- sqrt (19 / 33); - sqrt (19 / 33); - sqrt (19 / 33); 121 / 361]]%R.
(** quadrature_tables['0_1'] *)
Definition table_0_1 : list (nat * rule) := [
  (1, mkRule (rat q0_1_1) (None) (1)%R (1)%R false)].
(** quadrature_tables['1_2'] *)
Definition table_1_2 : list (nat * rule) := [
  (1, mkRule (rat q1_2_1) (Some (-1, 1)%R) (1)%R (1)%R true);
  (3, mkRule (rat q1_2_3) (Some (-1, 1)%R) (1)%R (1)%R true);
  (5, mkRule (rat q1_2_5) (Some (-1, 1)%R) (1)%R (1)%R true);
  (7, mkRule (rat q1_2_7) (Some (-1, 1)%R) (1)%R (1)%R true);
  (9, mkRule (rat q1_2_9) (Some (-1, 1)%R) (1)%R (1)%R true);
  (11, mkRule (rat q1_2_11) (Some (-1, 1)%R) (1)%R (1)%R true);
  (13, mkRule (rat q1_2_13) (Some (-1, 1)%R) (1)%R (1)%R true);
  (15, mkRule (rat q1_2_15) (Some (-1, 1)%R) (1)%R (1)%R true);
  (17, mkRule (rat q1_2_17) (Some (-1, 1)%R) (1)%R (1)%R true);
  (19, mkRule (rat q1_2_19) (Some (-1, 1)%R) (1)%R (1)%R true);
  (23, mkRule (rat q1_2_23) (Some (-1, 1)%R) (1)%R (1)%R true);
  (31, mkRule (rat q1_2_31) (Some (-1, 1)%R) (1)%R (1)%R true);
  (39, mkRule (rat q1_2_39) (Some (-1, 1)%R) (1)%R (1)%R true);
  (47, mkRule (rat q1_2_47) (Some (-1, 1)%R) (1)%R (1)%R true)].
(** quadrature_tables['2_3'] *)
Definition table_2_3 : list (nat * rule) := [
  (1, mkRule (rat q2_3_1) (None) (/ 2)%R (1)%R false);
  (2, mkRule (rat q2_3_2) (None) (/ 2)%R (1)%R false);
  (3, mkRule (rat q2_3_3) (None) (/ 2)%R (1)%R false);
  (4, mkRule (rat q2_3_4) (None) (/ 2)%R (/ 2)%R false);
  (5, mkRule (rat q2_3_5) (None) (/ 2)%R (/ 2)%R false);
  (6, mkRule (rat q2_3_6) (None) (/ 2)%R (/ 2)%R false);
  (7, mkRule (rat q2_3_7) (None) (/ 2)%R (/ 2)%R false);
  (8, mkRule (rat q2_3_8) (None) (/ 2)%R (/ 2)%R false);
  (9, mkRule (rat q2_3_9) (None) (/ 2)%R (/ 2)%R false);
  (10, mkRule (rat q2_3_10) (None) (/ 2)%R (/ 2)%R false);
  (12, mkRule (rat q2_3_12) (None) (/ 2)%R (/ 2)%R false);
  (13, mkRule (rat q2_3_13) (None) (/ 2)%R (/ 2)%R false);
  (14, mkRule (rat q2_3_14) (None) (/ 2)%R (/ 2)%R false);
  (17, mkRule (rat q2_3_17) (None) (/ 2)%R (/ 2)%R false);
  (19, mkRule (rat q2_3_19) (None) (/ 2)%R (/ 2)%R false)].
(** quadrature_tables['2_4'] *)
Definition table_2_4 : list (nat * rule) := [
  (2, mkRule q2_4_2 (Some (-1, 1)%R) (1)%R (1)%R false);
  (3, mkRule q2_4_3 (Some (-1, 1)%R) (1)%R (1)%R false);
  (5, mkRule q2_4_5 (Some (-1, 1)%R) (1)%R (1)%R false)].
(** quadrature_tables['3_4'] *)
Definition table_3_4 : list (nat * rule) := [
  (1, mkRule (rat q3_4_1) (None) (/ 6)%R (1)%R false);
  (2, mkRule q3_4_2 (None) (/ 6)%R (1)%R false);
  (3, mkRule (rat q3_4_3) (None) (/ 6)%R (1)%R false);
  (4, mkRule (rat q3_4_4) (Some (-1, 1)%R) (/ 6)%R (1)%R false);
  (6, mkRule (rat q3_4_6) (Some (-1, 1)%R) (/ 6)%R (1)%R false)].
(** quadrature_tables['3_6'] *)
Definition table_3_6 : list (nat * rule) := [
  (3, mkRule (rat q3_6_3) (None) (/ 2)%R (1)%R false);
  (6, mkRule (rat q3_6_6) (None) (/ 2)%R (1)%R false);
  (9, mkRule (rat q3_6_9) (None) (/ 2)%R (1)%R false)].
(** quadrature_tables['3_8'] *)
Definition table_3_8 : list (nat * rule) := [
  (2, mkRule q3_8_2 (Some (-1, 1)%R) (1)%R (1)%R false);
  (3, mkRule (rat q3_8_3) (Some (-1, 1)%R) (1)%R (1)%R false);
  (5, mkRule q3_8_5 (Some (-1, 1)%R) (1)%R (1)%R false)].
