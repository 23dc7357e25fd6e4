(** The repository's own test vectors (/repo/test/parse_adql.cxx) run on the model.
    This validates the model; it is not a claim about all inputs. *)
From Verif Require Import Query TestDefs.

Definition vec_pass1 : list string := [
  "Select ra1,dec2,flux From mytable Where Contains(Point('j2000',ra,dec),Circle('J2000',+10 , -20,-1))= 1";
  "Select ra1,dec2,flux From mytable Where Contains(Point('j2000',ra,dec),Circle('J2000',+10 , -20,-1))";
  "Select ra1,dec2,flux From mytable Where Contains(pos,Circle('J2000',+10 , -20,-1))";
  "Select ra1,dec2,flux From mytable Where Intersects(pos,Circle('J2000',+10 , -20,-1))= 1";
  "Select ra1,dec2,flux From mytable Where INTERSECTs(pos,Circle('J2000',+10 , -20,-1))";
  "Select ra1,dec2,flux From mytable Where Contains(Point('galactic',ra,dec),Circle('galactic',+10 , -20,-1))= 1";
  "Select ra1,dec2,flux From mytable Where Contains(Point('ICRS',ra,dec),Circle('icrs',+10 , -20,-1))= 1";
  "SELECT ra1 As rara, dec2, flux FROM mytable WHERE CONTAINS(POINT('J2000 Geocenter',ra,dec),CIRCLE('J2000 Geocenter',+10 , -20,-1))= 1";
  "SELECT ra1 As rara, dec2, flux FROM mytable WHERE CONTAINS(POINT('J2000 Geocenter',ra,dec),BOX('J2000',+10 , -20,1,2))= 1";
  "SELECT ra1 As rara, dec2, flux FROM mytable WHERE CONTAINS(POINT('J2000 Geocenter',ra,dec),ELLIPSE('J2000',+10 , -20,1,2,3))= 1";
  "SELECT ra1 As rara, dec2, flux FROM mytable WHERE CONTAINS(POINT('J2000 Geocenter',ra,dec),ELLIPSE(+10 , -20,1,2,3))";
  "SELECT ra1 As rara, dec2, flux FROM mytable WHERE CONTAINS(POINT('J2000 Geocenter',ra,dec),POLYGON('J2000',0,1,2,3,4,5,6,7,8,9,10,11,12,13))= 1";
  "SELECT ra1 As rara, dec2, flux FROM mytable WHERE CONTAINS(POINT('J2000 Geocenter',ra,dec),POLYGON(0,1,2,3,4,5,6,7,8,9,10,11,12,13))";
  "SELECT * FROM mytable WHERE CONTAINS(POINT('J2000',mytable.ra,dec),CIRCLE('J2000',+10 , -20,-1)) = 1";
  "SELECT * FROM my_table WHERE 1=CONTAINS(POINT('J2000',ra,my_table.dec),CIRCLE('J2000',+10 , -20,-1))";
  "SELECT * FROM my_table1 WHERE 1= CONTAINS(POINT('J2000',my_table1.ra,dec),CIRCLE('J2000',+10 , -20,-1))";
  "SELECT * FROM my_table1 WHERE 1= CONTAINS(POINT('J2000',my_table1.ra,dec),CIRCLE('J2000',+10 , -20,-1)) And (x<1)";
  "SELECT * FROM my_table1 WHERE (x!=3) and 1= CONTAINS(POINT('J2000',my_table1.ra,dec),CIRCLE('J2000',+10 , -20,-1))";
  "SELECT * FROM my_table1 WHERE (x!=3) and 1=CONTAINS(POINT('J2000',my_table1.ra,dec),CIRCLE('J2000',+10 , -20,-1))";
  "SELECT * FROM my_table1 WHERE (x!=3) and 1 = CONTAINS(POINT('J2000',my_table1.ra,dec),CIRCLE('J2000',+10 , -20,-1))";
  "SELECT * FROM my_table1 WHERE (x!=3) and CONTAINS(POINT('J2000',my_table1.ra,dec),CIRCLE('J2000',+10 , -20,-1)) = 1";
  "SELECT * FROM my_table1 WHERE x!=3";
  "SELECT * FROM my_table1";
  "SELECT * FROM my_table1 where x>2";
  "SELECT * FROM my_table1 where x>2 AND x<4";
  "SELECT * FROM my_table1 WHERE 1= CONTAINS(POINT(my_table1.ra,dec),CIRCLE('J2000',+10 , -20,-1)) And (x<1 And x>2 Or y < 3 Or y >5)";
  "SELECT * FROM my_table1 WHERE 1= CONTAINS(POINT('J2000',my_table1.ra,dec),CIRCLE('J2000',+10 , -20,-1)) And ((x<1 Or x>2))";
  "SELECT * FROM my_table1 WHERE 1= CONTAINS(POINT('J2000',my_table1.ra,dec),CIRCLE('J2000',+10 , -20,-1)) And (((x<1 Or x>2)))";
  "SELECT * FROM my_table1 WHERE 1= CONTAINS(POINT('J2000',my_table1.ra,dec),CIRCLE('J2000',+10 , -20,-1)) And (x<1 And y>2)";
  "SELECT * FROM my_table1 where (x AND x)";
  "SELECT * FROM my_table1 where (x>2 AND x<4) Or (x>6 and x<10)";
  "SELECT * FROM my_table1 where ((x>2 AND x<4) Or (x>6 and x<10))";
  "SELECT * FROM my_table1 where (x Between 2 AND 4) Or (x>6 and x<10)";
  "SELECT * FROM my_table1 where x is null";
  "SELECT * FROM my_table1 where x is not null";
  "SELECT * FROM fp_psc WHERE CONTAINS(POINT('J2000',ccc.fp_psc.ra, aaa.ccc.fp_pscdec),CIRCLE(1,1,0.08))=1 and (ra between 0.95 and 1.05)";
  "SELECT * FROM my_table1 where x in (select y from my_table2)";
  "SELECT * FROM my_table1 where x between y and z";
  "SELECT * FROM my_table1 where x or z";
  "SELECT * FROM my_table1 where x in (10,20,30)";
  "SELECT * FROM my_table1 where x not in (10,20,30)";
  "SELECT All * FROM my_table1";
  "SELECT Distinct * FROM my_table1";
  "SELECT Top 14223 * FROM my_table1";
  "SELECT * FROM my_table1 where 38*(x+1-3)>2/4";
  "SELECT ra+dec as ra_dec FROM my_table1";
  "SELECT ra+dec FROM my_table1";
  "SELECT my_tablel1.* FROM my_table1";
  "SELECT sin(dec),cos(dec),tan(dec),cot(dec),asin(dec),acos(dec),atan(dec),atan2(ra,dec) FROM my_table1";
  "SELECT abs(ra),ceiling(ra), degrees(ra),exp(ra),floor(ra),log(ra),log10(ra),radians(ra),sqrt(ra) FROM my_table1";
  "SELECT mod(ra, dec),power( ra,dec ),pi(),rand(ra),rand(),round(ra,10),round(ra),truncate(ra),truncate(ra,10) FROM my_table1";
  "SELECT modern() FROM my_table1";
  "SELECT my_modern_function(ra,dec) FROM my_table1";
  "SELECT my_modern_function(ra,dec), modern() FROM my_table1";
  "SELECT my_modern_function(ra,dec) || modern() FROM my_table1";
  "select 'a b c','a','a ''bv' from b";
  "select ""a b"",""a """" b"" from b";
  "select 'a' 'b' from b";
  "select 'a' --This is a useful comment
 'b' from b";
  "select (a), sum(a), max(all a), min(distinct a), count(a), avg ( a ) ,min(a) from a";
  "select max(all a) from a";
  "select count ( * ) from a";
  "select count(*) from a";
  "select count(a) from a";
  "select count(all a) from a";
  "select count(distinct a) from a";
  "select sum(a) from a";
  "select sum(all a) from a";
  "select sum(DISTINCT a) from a";
  "select sum(DISTINCTa) from a";
  "select single from a";
  "select a,b from a group by a";
  "select a,b from a group by a having x>2";
  "select f(a, b, c), max(d), max(e) from t group by f(a,b,c)";
  "SELECT * FROM my_table1 order by x";
  "SELECT * FROM my_table1 order by x asc";
  "SELECT * FROM my_table1 order by x desc";
  "select b from a where x<1 order by a";
  "SELECT * FROM my_table1 where x like y";
  "SELECT * FROM my_table1 where x like y || z";
  "SELECT * FROM my_table1 where x not like my_sin(x)";
  "SELECT * FROM my_table1 where x like my_sin(x) || x";
  "SELECT * FROM my_table1 where exists (select a from b)";
  "SELECT * FROM my_table WHERE (mjd>=55550.0 and mjd<=65650.5)";
  "SELECT my_table1.*,'table' from my_table1";
  "SELECT myschema.mytable.* from myschema.mytable";
  "SELECT * from mycatalog.myschema.mytable";
  "SELECT * from myschema.mytable";
  "SELECT mycatalog.myschema.mytable.* from mycatalog.myschema.mytable";
  "SELECT * from myschema.mytable as mine";
  "SELECT * from myschema.mytable mine";
  "SELECT * from myschema.mytable, yourscheme.yourtable mine";
  "SELECT * from TAP_UPLOAD.mytable";
  "SELECT * from tapmod.mytable";
  "SELECT TAP_UPLOAD.mytable.b from TAP_UPLOAD.mytable";
  "SELECT TAP_UPLOAD.mytable.* from TAP_UPLOAD.mytable";
  "SELECT TAP_UPLOAD.mytable.*, fp_psc.* from TAP_UPLOAD.mytable, fp_psc";
  "SELECT * FROM my_table1 WHERE 1= CONTAINS(POINT('J2000',TAP_UPLOAD.mytable.ra,TAP_UPLOAD.mytable.dec),CIRCLE('J2000',+10 , -20,-1)) ";
  "SELECT * FROM TAP_UPLOAD.mytable WHERE 1= CONTAINS(POINT('J2000',TAP_UPLOAD.mytable.ra,TAP_UPLOAD.mytable.dec),CIRCLE('J2000',+10 , -20,-1)) ORDER BY TAP_UPLOAD.mytable.ra";
  "SELECT TAP_UPLOAD.mytable.ra as myra FROM TAP_UPLOAD.mytable WHERE 1= CONTAINS(POINT('J2000',TAP_UPLOAD.mytable.ra,TAP_UPLOAD.mytable.dec),CIRCLE('J2000',+10 , -20,-1)) ORDER BY myra";
  "SELECT * FROM my_table1 WHERE 1= CONTAINS(POINT('J2000',TAP_UPLOAD.mytable.ra,TAP_UPLOAD.mytable.dec),CIRCLE('J2000',TAP_UPLOAD.mytable.ra,TAP_UPLOAD.mytable.dec,-1)) ";
  "SELECT alligator from a";
  "SELECT tophat from a";
  "SELECT max(alligator) from a";
  "SELECT maximus from a";
  "SELECT ast from a";
  "Select fromage from fromming";
  "Select fromage from fromming ast";
  "select alligator from table1 join table2";
  "select alligator from table1 natural join table2";
  "select alligator from table1 natural left outer join table2";
  "select alligator from table1 right outer join table2";
  "select alligator from table1 right join table2";
  "select alligator from table1 full outer join table2";
  "select alligator from table1 natural inner join table2";
  "select alligator from table1 inner join table2";
  "select alligator from (table1 join table2)";
  "select alligator from table1 join (table2 join (table3 join table4))";
  "select alligator from table1 join table2 on a=b";
  "select alligator from table1 t1 join table2 t2 on a=b join table3 t3 on c=d join table4 t4 on e=f join table5 t5 on g=h";
  "select alligator from (table1 t1 join table2 t2 on a=b) join table3 t3 on c=d";
  "select alligator from table1 join table2 using (a,b, c )";
  "select TOP 14223 caom.observation.*,caom.plane.*,caom.artifact.*,caom.part.*,caom.chunk.* FROM caom.observation join caom.plane on caom.observation.obsid = caom.plane.obsid join caom.artifact on caom.plane.planeid = caom.artifact.planeid join caom.part on caom.artifact.artifactid = caom.part.artifactid join caom.chunk on caom.part.partid = caom.chunk.partid";
  "select TOP 14223 caom.observation.*,caom.plane.*,caom.artifact.*,caom.part.*,caom.chunk.* FROM (((caom.observation join caom.plane on caom.observation.obsid = caom.plane.obsid) join caom.artifact on caom.plane.planeid = caom.artifact.planeid) join caom.part on caom.artifact.artifactid = caom.part.artifactid) join caom.chunk on caom.part.partid = caom.chunk.partid";
  "select alligator from (select a from b) as c";
  "select fp_psc.* from fp_psc, TAP_UPLOAD.mytable where 1=contains(fp_psc.ra_dec, circle('j2000',TAP_UPLOAD.mytable.ra,TAP_UPLOAD.mytable.dec,0.001))";
  "select fp_psc.* from fp_psc, TAP_UPLOAD.mytable where 1=contains(fp_psc.ra_dec, circle('j2000',TAP_UPLOAD.mytable.ra,TAP_UPLOAD.mytable.dec,TAP_UPLOAD.mytable.r))"]%string.

(** Run when this file is compiled ([reflexivity] fails if a vector fails).  The goal is dropped
    afterwards: it is a test run, not a theorem, and replaying it without the VM takes hours. *)
Goal forallb pass_ok vec_pass1 = true.
Proof. vm_compute. reflexivity. Abort.
