(** ac_sincos_lut.h: sine and cosine from a table of 512 entries.  No proofs here. *)
From Coq Require Import List.
From Verif Require Import AcTypes Spec.
Import ListNotations.

(** sincos, ac_sincos_lut.h:141-654, as pairs (cosine, sine): the doubles nearest to the literals, which are multiples
    of 2^-62, in units of 2^-62. *)
Definition lut_tab : list (Z * Z) := [
  (4611686018427387904, 0); (4611680592556051456, 7074234977634093); (4611664314954810368, 14148453308909940);
  (4611637185661966848, 21222638347508464); (4611599204741358592, 28296773447188932); (4611550372282359296, 35370841961828116);
  (4611490688399875584, 42444827245459480); (4611420153234349568, 49518712652312320); (4611338766951757312, 56592481536850976);
  (4611246529743609344, 63666117253813960); (4611143441826947584, 70739603158253136); (4611029503444348416, 77812922605572896);
  (4610904714863919616, 84886058951569360); (4610769076379301376, 91958995552469440); (4610622588309663232, 99031715764970096);
  (4610465250999706624, 106104202946277456); (4610297064819661312, 113176440454146048); (4610118030165284864, 120248411646917824);
  (4609928147457864192, 127320099883561456); (4609727417144210432, 134391488523711440); (4609515839696662528, 141462560927707216);
  (4609293415613082112, 148533300456632384); (4609060145416854528, 155603690472353824); (4608816029656887296, 162673714337560864);
  (4608561068907608576, 169743355415804416); (4608295263768964608, 176812597071536096); (4608018614866421760, 183881422670147456);
  (4607731122850960896, 190949815578009056); (4607432788399078912, 198017759162509536); (4607123612212785664, 205085236792094976);
  (4606803595019601920, 212152231836307776); (4606472737572559360, 219218727665825984); (4606131040650198016, 226284707652502304);
  (4605778505056563200, 233350155169403264); (4605415131621205504, 240415053590848384); (4605040921199177216, 247479386292449216);
  (4604655874671032320, 254543136651148544); (4604259992942821888, 261606288045259456); (4603853276946094592, 268668823854504416);
  (4603435727637891584, 275730727460054464); (4603007346000747008, 282791982244568288); (4602568133042684928, 289852571592231232);
  (4602118089797214720, 296912478888794560); (4601657217323332608, 303971687521614400); (4601185516705515520, 311030180879691072);
  (4600702989053720576, 318087942353707776); (4600209635503382016, 325144955336070016); (4599705457215408640, 332201203220944640);
  (4599190455376180224, 339256669404298688); (4598664631197546496, 346311337283938688); (4598127985916821504, 353365190259549760);
  (4597580520796784640, 360418211732734400); (4597022237125672960, 367470385107051840); (4596453136217183232, 374521693788056896);
  (4595873219410463744, 381572121183339072); (4595282488070115328, 388621650702561664); (4594680943586185728, 395670265757500864);
  (4594068587374167552, 402717949762084416); (4593445420874993152, 409764686132431232); (4592811445555034624, 416810458286889856);
  (4592166662906096640, 423855249646077824); (4591511074445414912, 430899043632920576); (4590844681715652608, 437941823672690432);
  (4590167486284896256, 444983573193045696); (4589479489746652160, 452024275624069568); (4588780693719842304, 459063914398308992);
  (4588071099848801280, 466102472950814080); (4587350709803272192, 473139934719176576); (4586619525278402560, 480176283143569216);
  (4585877547994740224, 487211501666784384); (4585124779698228736, 494245573734273344); (4584361222160205824, 501278482794185088);
  (4583586877177394688, 508310212297405248); (4582801746571904512, 515340745697595008); (4582005832191223808, 522370066451230208);
  (4581199135908215808, 529398158017640128); (4580381659621114368, 536425003859046336); (4579553405253520896, 543450587440601920);
  (4578714374754397184, 550474892230429952); (4577864570098063360, 557497901699662848); (4577003993284191744, 564519599322480832);
  (4576132646337803264, 571539968576151168); (4575250531309260800, 578558992941067008); (4574357650274266112, 585576655900785664);
  (4573454005333855232, 592592940942068608); (4572539598614391808, 599607831554919296); (4571614432267562496, 606621311232622592);
  (4570678508470373888, 613633363471783168); (4569731829425144320, 620643971772364800); (4568774397359501824, 627653119637729024);
  (4567806214526376448, 634660790574673920); (4566827283203995136, 641666968093472768); (4565837605695878656, 648671635707913088);
  (4564837184330833408, 655674776935335424); (4563826021462947840, 662676375296672000); (4562804119471585280, 669676414316485376);
  (4561771480761380352, 676674877523007744); (4560728107762231296, 683671748448179072); (4559674002929295872, 690667010627686272);
  (4558609168742984704, 697660647601001600); (4557533607708955136, 704652642911421824); (4556447322358106112, 711642980106106496);
  (4555350315246572032, 718631642736116992); (4554242588955717120, 725618614356455040); (4553124146092127744, 732603878526101504);
  (4551994989287608320, 739587418808055168); (4550855121199173632, 746569218769370880); (4549704544509043712, 753549261981199232);
  (4548543261924636160, 760527532018824192); (4547371276178561536, 767504012461702144); (4546188590028615680, 774478686893500800);
  (4544995206257773056, 781451538902137600); (4543791127674180608, 788422552079818112); (4542576357111151616, 795391710023074944);
  (4541350897427159552, 802358996332806400); (4540114751505828352, 809324394614314496); (4538867922255928832, 816287888477344512);
  (4537610412611371008, 823249461536122752); (4536342225531196928, 830209097409395072); (4535063363999572480, 837166779720466176);
  (4533773831025782784, 844122492097237632); (4532473629644223488, 851076218172246016); (4531162762914394112, 858027941582702464);
  (4529841233920890368, 864977645970530048); (4528509045773398016, 871925314982403072); (4527166201606684160, 878870932269785472);
  (4525812704580591104, 885814481488968576); (4524448557880027648, 892755946301110400); (4523073764714963456, 899695310372273792);
  (4521688328320418816, 906632557373464704); (4520292251956460032, 913567670980670976); (4518885538908189696, 920500634874900224);
  (4517468192485739008, 927431432742218752); (4516040216024261120, 934360048273789696); (4514601612883922944, 941286465165911424);
  (4513152386449895936, 948210667120055936); (4511692540132350976, 955132637842907264); (4510222077366446080, 962052361046399616);
  (4508741001612323328, 968969820447755776); (4507249316355096576, 975884999769525632); (4505747025104845312, 982797882739624192);
  (4504234131396606464, 989708453091370240); (4502710638790364160, 996616694563524096); (4501176550871044096, 1003522590900326272);
  (4499631871248503808, 1010426125851535616); (4498076603557522944, 1017327283172467584); (4496510751457796608, 1024226046624032256);
  (4494934318633926656, 1031122399972772864); (4493347308795411456, 1038016326990903936); (4491749725676638208, 1044907811456349056);
  (4490141573036875264, 1051796837152779776); (4488522854660259840, 1058683387869653120); (4486893574355793408, 1065567447402250112);
  (4485253735957329408, 1072448999551713536); (4483603343323566592, 1079328028125086592); (4481942400338038272, 1086204516935350528);
  (4480270910909103104, 1093078449801462784); (4478588878969937408, 1099949810548395520); (4476896308478525440, 1106818583007173120);
  (4475193203417648128, 1113684751014910464); (4473479567794876416, 1120548298414850944); (4471755405642561024, 1127409209056404608);
  (4470020721017821696, 1134267466795185920); (4468275518002538496, 1141123055493051904); (4466519800703343616, 1147975959018140160);
  (4464753573251608576, 1154826161244906752); (4462976839803437568, 1161673646054164224); (4461189604539656192, 1168518397333119232);
  (4459391871665801216, 1175360398975410944); (4457583645412111872, 1182199634881148672); (4455764930033519616, 1189036088956949504);
  (4453935729809636864, 1195869745115976448); (4452096049044748800, 1202700587277976832); (4450245892067802112, 1209528599369319168);
  (4448385263232394240, 1216353765323031296); (4446514166916765184, 1223176069078838272); (4444632607523785216, 1229995494583200768);
  (4442740589480945152, 1236812025789351680); (4440838117240346112, 1243625646657334528); (4438925195278689280, 1250436341154041344);
  (4437001828097264640, 1257244093253250048); (4435068020221941248, 1264048886935662080); (4433123776203155456, 1270850706188941312);
  (4431169100615901184, 1277649535007749120); (4429203998059719680, 1284445357393785344); (4427228473158686208, 1291238157355822848);
  (4425242530561402368, 1298027918909747712); (4423246174940982272, 1304814626078594560); (4421239410995043840, 1311598262892586240);
  (4419222243445697024, 1318378813389169920); (4417194677039531008, 1325156261613055488); (4415156716547605504, 1331930591616252160);
  (4413108366765438976, 1338701787458107648); (4411049632512996352, 1345469833205343744); (4408980518634677248, 1352234712932094976);
  (4406901029999307776, 1358996410719945728); (4404811171500124160, 1365754910657968640); (4402710948054766592, 1372510196842759680);
  (4400600364605263360, 1379262253378478592); (4398479426118020608, 1386011064376883712); (4396348137583812096, 1392756613957370880);
  (4394206504017765376, 1399498886247010560); (4392054530459351040, 1406237865380584704); (4389892221972370944, 1412973535500624384);
  (4387719583644945408, 1419705880757447168); (4385536620589502976, 1426434885309194240); (4383343337942766080, 1433160533321868288);
  (4381139740865740800, 1439882808969369344); (4378925834543704064, 1446601696433533696); (4376701624186191360, 1453317179904170240);
  (4374467115026983936, 1460029243579097600); (4372222312324098048, 1466737871664181504); (4369967221359771136, 1473443048373372160);
  (4367701847440450048, 1480144757928741120); (4365426195896779264, 1486842984560518144); (4363140272083585536, 1493537712507129344);
  (4360844081379869184, 1500228926015233024); (4358537629188788224, 1506916609339757056); (4356220920937648128, 1513600746743937280);
  (4353893962077886464, 1520281322499352064); (4351556758085062144, 1526958320885961984); (4349209314458842624, 1533631726192144128);
  (4346851636722989568, 1540301522714731776); (4344483730425345536, 1546967694759049216); (4342105601137823232, 1553630226638949888);
  (4339717254456391168, 1560289102676852224); (4337318696001058816, 1566944307203778304); (4334909931415866368, 1573595824559388416);
  (4332490966368869888, 1580243639092020224); (4330061806552126976, 1586887735158723584); (4327622457681686016, 1593528097125298944);
  (4325172925497570816, 1600164709366332928); (4322713215763766272, 1606797556265235968); (4320243334268207104, 1613426622214278656);
  (4317763286822764032, 1620051891614628352); (4315273079263227392, 1626673348876386560); (4312772717449296384, 1633290978418624000);
  (4310262207264563712, 1639904764669419776); (4307741554616502784, 1646514692065895936); (4305210765436451840, 1653120745054254336);
  (4302669845679603712, 1659722908089814528); (4300118801324986368, 1666321165637049088); (4297557638375455232, 1672915502169620736);
  (4294986362857673216, 1679505902170418432); (4292404980822099456, 1686092350131594496); (4289813498342976512, 1692674830554600704);
  (4287211921518312448, 1699253327950224640); (4284600256469868544, 1705827826838626560); (4281978509343144960, 1712398311749375488);
  (4279346686307366400, 1718964767221485568); (4276704793555466240, 1725527177803453184); (4274052837304073728, 1732085528053292032);
  (4271390823793497600, 1738639802538570240); (4268718759287713280, 1745189985836447488); (4266036650074346496, 1751736062533709312);
  (4263344502464658944, 1758278017226804736); (4260642322793534464, 1764815834521882880); (4257930117419462656, 1771349499034827776);
  (4255207892724524544, 1777878995391296000); (4252475655114378240, 1784404308226751744); (4249733411018242560, 1790925422186503680);
  (4246981166888882688, 1797442321925740544); (4244218929202595328, 1803954992109567744); (4241446704459191808, 1810463417413043456);
  (4238664499181985280, 1816967582521214208); (4235872319917773312, 1823467472129150976); (4233070173236823552, 1829963070941986048);
  (4230258065732857344, 1836454363674947584); (4227436004023036416, 1842941335053396992); (4224603994747943424, 1849423969812864000);
  (4221762044571570176, 1855902252699082496); (4218910160181300224, 1862376168468027648); (4216048348287892480, 1868845701885949696);
  (4213176615625466880, 1875310837729412096); (4210294968951488512, 1881771560785325312); (4207403415046749184, 1888227855850983936);
  (4204501960715355648, 1894679707734102272); (4201590612784709632, 1901127101252849664); (4198669378105494016, 1907570021235885824);
  (4195738263551656448, 1914008452522398208); (4192797276020391936, 1920442379962136064); (4189846422432129536, 1926871788415446272);
  (4186885709730511360, 1933296662753309952); (4183915144882381312, 1939716987857377024); (4180934734877765120, 1946132748620002560);
  (4177944486729855488, 1952543929944281600); (4174944407474994688, 1958950516744084992); (4171934504172659712, 1965352493944095488);
  (4168914783905443840, 1971749846479842304); (4165885253779039744, 1978142559297736704); (4162845920922225152, 1984530617355108096);
  (4159796792486843392, 1990914005620238848); (4156737875647788544, 1997292709072399616); (4153669177602987008, 2003666712701884928);
  (4150590705573382656, 2010036001510049024); (4147502466802916352, 2016400560509339648); (4144404468558512640, 2022760374723334656);
  (4141296718130061312, 2029115429186777088); (4138179222830398464, 2035465708945609984); (4135051989995292160, 2041811199057011200);
  (4131915026983422976, 2048151884589430272); (4128768341176368128, 2054487750622620928); (4125611939978583040, 2060818782247678976);
  (4122445830817384960, 2067144964567074816); (4119270021142934528, 2073466282694691072); (4116084518428218880, 2079782721755855104);
  (4112889330169032704, 2086094266887375616); (4109684463883963904, 2092400903237577728); (4106469927114371584, 2098702615966336256);
  (4103245727424371200, 2104999390245113088); (4100011872400816128, 2111291211256989440); (4096768369653280256, 2117578064196703232);
  (4093515226814038528, 2123859934270682112); (4090252451538050048, 2130136806697078528); (4086980051502940160, 2136408666705806080);
  (4083698034408982528, 2142675499538571776); (4080406407979080192, 2148937290448912896); (4077105179958748160, 2155194024702230272);
  (4073794358116094976, 2161445687575824128); (4070473950241804288, 2167692264358927872); (4067143964149116416, 2173933740352742656);
  (4063804407673810432, 2180170100870472704); (4060455288674184704, 2186401331237359104); (4057096615031040512, 2192627416790715392);
  (4053728394647661568, 2198848342879960320); (4050350635449795072, 2205064094866654208); (4046963345385634304, 2211274658124532224);
  (4043566532425801216, 2217480018039539200); (4040160204563324416, 2223680160009863424); (4036744369813621760, 2229875069445972224);
  (4033319036214482944, 2236064731770645248); (4029884211826049024, 2242249132419009024); (4026439904730792960, 2248428256838571520);
  (4022986123033502208, 2254602090489256192); (4019522874861259264, 2260770618843436032); (4016050168363421184, 2266933827385967616);
  (4012568011711601664, 2273091701614226432); (4009076413099651584, 2279244227038139392); (4005575380743640064, 2285391389180219904);
  (4002064922881835008, 2291533173575601408); (3998545047774681600, 2297669565772072192); (3995015763704786944, 2303800551330108672);
  (3991477078976897024, 2309926115822909440); (3987929001917878272, 2316046244836429824); (3984371540876700160, 2322160923969414656);
  (3980804704224410624, 2328270138833433600); (3977228500354121728, 2334373875052914176); (3973642937680986624, 2340472118265174528);
  (3970048024642180096, 2346564854120460288); (3966443769696880128, 2352652068281975296); (3962830181326246912, 2358733746425916416);
  (3959207268033402880, 2364809874241507328); (3955575038343412736, 2370880437431032320); (3951933500803264000, 2376945421709870080);
  (3948282663981846016, 2383004812806526976); (3944622536469930496, 2389058596462670336); (3940953126880151552, 2395106758433161728);
  (3937274443846984192, 2401149284486092800); (3933586496026724352, 2407186160402815488); (3929889292097470464, 2413217371977977856);
  (3926182840759099392, 2419242905019556352); (3922467150733250048, 2425262745348889600); (3918742230763299328, 2431276878800712192);
  (3915008089614344704, 2437285291223186432); (3911264736073180160, 2443287968477938688); (3907512178948278272, 2449284896440088064);
  (3903750427069768704, 2455276060998284800); (3899979489289416704, 2461261448054739968); (3896199374480603136, 2467241043525259264);
  (3892410091538303488, 2473214833339277312); (3888611649379066880, 2479182803439888896); (3884804056940994048, 2485144939783884800);
  (3880987323183717888, 2491101228341781504); (3877161457088381952, 2497051655097857536); (3873326467657618432, 2502996206050183168);
  (3869482363915527680, 2508934867210656256); (3865629154907657728, 2514867624605032960); (3861766849700981248, 2520794464272962560);
  (3857895457383875584, 2526715372268018688); (3854014987066100224, 2532630334657732608); (3850125447878777856, 2538539337523627008);
  (3846226848974368768, 2544442366961246720); (3842319199526653440, 2550339409080193536); (3838402508730707968, 2556230450004157952);
  (3834476785802884608, 2562115475870951424); (3830542039980788736, 2567994472832539648); (3826598280523256832, 2573867427055074304);
  (3822645516710336000, 2579734324718927872); (3818683757843261440, 2585595152018722816); (3814713013244434432, 2591449895163366400);
  (3810733292257400320, 2597298540376082432); (3806744604246827520, 2603141073894444032); (3802746958598483968, 2608977481970404864);
  (3798740364719215616, 2614807750870333440); (3794724832036925952, 2620631866875044352); (3790700370000549888, 2626449816279828992);
  (3786666988080036352, 2632261585394490880); (3782624695766322688, 2638067160543375872); (3778573502571312128, 2643866528065405440);
  (3774513418027854336, 2649659674314106368); (3770444451689720832, 2655446585657647104); (3766366613131581440, 2661227248478865408);
  (3762279911948984832, 2667001649175304192); (3758184357758333952, 2672769774159239680); (3754079960196862464, 2678531609857717760);
  (3749966728922615296, 2684287142712581632); (3745844673614422016, 2690036359180506624); (3741713803971877888, 2695779245733031424);
  (3737574129715317760, 2701515788856589312); (3733425660585794560, 2707245975052539904); (3729268406345057792, 2712969790837200896);
  (3725102376775527936, 2718687222741882368); (3720927581680274432, 2724398257312913408); (3716744030882993664, 2730102881111678464);
  (3712551734227985408, 2735801080714647040); (3708350701580128256, 2741492842713404928); (3704140942824857600, 2747178153714685952);
  (3699922467868142592, 2752857000340404224); (3695695286636462080, 2758529369227685376); (3691459409076782592, 2764195247028897280);
  (3687214845156532224, 2769854620411682304); (3682961604863580672, 2775507476058988032); (3678699698206212608, 2781153800669099008);
  (3674429135213106176, 2786793580955668480); (3670149925933308928, 2792426803647748096); (3665862080436213760, 2798053455489821184);
  (3661565608811534848, 2803673523241831936); (3657260521169285120, 2809286993679218688); (3652946827639751680, 2814893853592942592);
  (3648624538373472256, 2820494089789521408); (3644293663541210624, 2826087689091057664); (3639954213333934080, 2831674638335272448);
  (3635606197962787328, 2837254924375534080); (3631249627659071488, 2842828534080890880); (3626884512674216960, 2848395454336100352);
  (3622510863279760896, 2853955672041661952); (3618128689767323136, 2859509174113845760); (3613738002448580608, 2865055947484725248);
  (3609338811655244800, 2870595979102206976); (3604931127739037184, 2876129255930061312); (3600514961071663104, 2881655764947953152);
  (3596090322044790272, 2887175493151473152); (3591657221070020608, 2892688427552167424); (3587215668578869248, 2898194555177569280);
  (3582765675022738432, 2903693863071228416); (3578307250872892928, 2909186338292742144); (3573840406620435456, 2914671967917785088);
  (3569365152776281600, 2920150739038141440); (3564881499871136768, 2925622638761733632); (3560389458455468032, 2931087654212653056);
  (3555889039099484160, 2936545772531189760); (3551380252393105408, 2941996980873864704); (3546863108945943552, 2947441266413457920);
  (3542337619387272704, 2952878616339040256); (3537803794366007296, 2958309017856001024); (3533261644550674944, 2963732458186081280);
  (3528711180629393920, 2969148924567402496); (3524152413309844480, 2974558404254495744); (3519585353319246848, 2979960884518332928);
  (3515010011404334592, 2985356352646355968); (3510426398331329024, 2990744795942507008); (3505834524885914112, 2996126201727258624);
  (3501234401873212416, 3001500557337643520); (3496626040117756928, 3006867850127283200); (3492009450463468032, 3012228067466419712);
  (3487384643773627904, 3017581196741943808); (3482751630930852352, 3022927225357425152); (3478110422837069312, 3028266140733142016);
  (3473461030413489152, 3033597930306110464); (3468803464600581120, 3038922581530115072); (3464137736358047744, 3044240081875737600);
  (3459463856664798208, 3049550418830384640); (3454781836518922752, 3054853579898321920); (3450091686937667584, 3060149552600698368);
  (3445393418957407232, 3065438324475578368); (3440687043633619968, 3070719883077971968); (3435972572040862208, 3075994215979860480);
  (3431250015272740352, 3081261310770229248); (3426519384441887232, 3086521155055095808); (3421780690679933440, 3091773736457538560);
  (3417033945137483776, 3097019042617725952); (3412279158984089088, 3102257061192945664); (3407516343408219648, 3107487779857634304);
  (3402745509617241600, 3112711186303405568); (3397966668837386752, 3117927268239079424); (3393179832313729536, 3123136013390711296);
  (3388385011310158848, 3128337409501620224); (3383582217109351424, 3133531444332419584); (3378771461012746240, 3138718105661043200);
  (3373952754340516352, 3143897381282776064); (3369126108431545344, 3149069259010281984); (3364291534643395584, 3154233726673633792);
  (3359449044352287744, 3159390772120339456); (3354598648953068544, 3164540383215373312); (3349740359859186688, 3169682547841203200);
  (3344874188502666240, 3174817253897818624); (3340000146334077952, 3179944489302760448); (3335118244822514176, 3185064241991148032);
  (3330228495455560704, 3190176499915709440); (3325330909739269632, 3195281251046808064); (3320425499198134272, 3200378483372470784);
  (3315512275375058432, 3205468184898417664); (3310591249831332864, 3210550343648089600); (3305662434146606592, 3215624947662675968);
  (3300725839918857728, 3220691985001143296); (3295781478764370432, 3225751443740263424); (3290829362317703168, 3230803311974641664);
  (3285869502231665152, 3235847577816742912); (3280901910177286144, 3240884229396923392); (3275926597843789824, 3245913254863454720);
  (3270943576938566656, 3250934642382554624); (3265952859187146240, 3255948380138413568)].

(** The literal 0.7071067811865475244008 of ac_sincos_lut.h:701-706, in units of 2^-62. *)
Definition lut_half : Z := 3260954456333195776.

(** lut_index before the octant is taken into account, ac_sincos_lut.h:658-680, for posinput = p with F fraction bits.
    x of line 674 is lut_index1 / 2^(F-12) exactly, so that the test of line 676 is on integers here. *)
Definition lut_index (F p : Z) : Z :=
  let l := p mod 2 ^ Z.max (F - 3) 1 in
  if (4 <=? F) && (F <=? 12) then l * 2 ^ (12 - F)
  else if 12 <? F then
    let d := 2 ^ (F - 12) in
    let h := 2 ^ (F - 13) in
    let q := (l / d) mod 512 in
    let q := if h <? l mod d then (q + 1) mod 512 else q in
    let q := if 1023 * d <? 2 * l then 511 else q in
    if (l <=? h) && negb (l =? 0) then 1 else q
  else 0.

(** luttype, ac_sincos_lut.h:126: unsigned, AC_RND and AC_WRAP with the width of the output. *)
Definition lut_fmt (fo : fmt) : fmt := Fmt (fW fo) (fI fo) false RND WRAP.
Definition lut_cos (fo : fmt) (k : Z) : Z := conv (lut_fmt fo) (fst (nth (Z.to_nat k) lut_tab (0, 0))) 62.
Definition lut_sin (fo : fmt) (k : Z) : Z := conv (lut_fmt fo) (snd (nth (Z.to_nat k) lut_tab (0, 0))) 62.

(** The eighths of a turn: sign and table (true: the column of the cosine) for sine and cosine, ac_sincos_lut.h:691-699. *)
Definition oct_sin (o : Z) : bool * bool :=
  if (o =? 0) || (o =? 3) then (false, false) else if (o =? 2) || (o =? 1) then (false, true)
  else if (o =? 7) || (o =? 4) then (true, false) else (true, true).
Definition oct_cos (o : Z) : bool * bool :=
  if (o =? 6) || (o =? 1) then (false, false) else if (o =? 3) || (o =? 4) then (true, true)
  else if (o =? 2) || (o =? 5) then (true, false) else (false, true).
Definition lut_out (fo : fmt) (k : Z) (s : bool * bool) : Z :=
  let v := if snd s then lut_cos fo k else lut_sin fo k in
  conv fo (if fst s then - v else v) (fF fo).

(** ac_sincos_lut, ac_sincos_lut.h:110-732, for an angle a (in turns) of type fi: the pair (sine, cosine), or None where
    1 << (F - 12) overflows an int.  F = W - I must be at least 1 for posinputtype to exist. *)
Definition sincos_lut (fi fo : fmt) (a : Z) : option (Z * Z) :=
  let F := fF fi in
  let p := conv (dfmt F 0 false) a F in
  if 43 <=? F then None
  else if 3 <=? F then
    let o := p / 2 ^ (F - 3) in
    let k := lut_index F p in
    let k := if Z.odd o then (512 - k) mod 512 else k in
    let e n := p =? n * 2 ^ (F - 3) in
    Some (if e 1 || e 3 then conv fo lut_half 62 else if e 5 || e 7 then conv fo (- lut_half) 62 else lut_out fo k (oct_sin o),
          if e 1 || e 7 then conv fo lut_half 62 else if e 3 || e 5 then conv fo (- lut_half) 62 else lut_out fo k (oct_cos o))
  else
    let e n := 4 * p =? n * 2 ^ F in
    Some (if e 0 then conv fo 0 0 else if e 1 then conv fo 1 0 else if e 2 then conv fo 0 0 else conv fo (- 1) 0,
          if e 0 then conv fo 1 0 else if e 1 then conv fo 0 0 else if e 2 then conv fo (- 1) 0 else conv fo 0 0).
